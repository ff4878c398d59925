(** Tree-level meaning of the queries: recursive functions on PSDD trees and their relation to sums, counts, maxima and
    existence over instantiations. *)
From Coq Require Import Reals Lra.
From Verif Require Import Base Vtree VtreeProofs Spec SpecProofs MulProofs.
Local Open Scope R_scope.

Notation telem := (ptree * ptree * R)%type.

(** ** Evaluation under partial evidence *)
Fixpoint tev (mask x : inst) (t : ptree) : R :=
  match t with
  | TLit l => if mask (Z.abs_N l) then (if lit_sat l x then 1 else 0) else 1
  | TTop v a b => if mask v then (if x v then a else b) else 1
  | TDec es => rsum (fun e => tev mask x (fst (fst e)) * tev mask x (snd (fst e)) * snd e) es
  end.
(** Top nodes sum to one (all that partial evaluation needs). *)
Definition tops_one : ptree -> Prop := all_nodes (fun t => match t with TTop _ a b => a + b = 1 | _ => True end).
Lemma normalized_tops_one t : normalized t -> tops_one t.
Proof.
  unfold normalized, tops_one. induction t as [l|v a b|es IH] using ptree_ind2; intros H; auto.
  apply all_nodes_dec in H as [_ H]. apply all_nodes_dec. split; auto. rewrite Forall_forall in *. intros e He.
  destruct (H e He), (IH e He). auto.
Qed.
Lemma tev_full vt : forall t mask x, conforms vt t -> (forall v, In v (leaves vt) -> mask v = true) -> tev mask x t = weight t x.
Proof.
  induction vt as [v|a IHa b IHb]; intros t mask x C M; destruct t as [l|w p q|es]; simpl in C; try contradiction.
  - subst. simpl. rewrite M by (left; auto). reflexivity.
  - subst. simpl. rewrite M by (left; auto). reflexivity.
  - destruct C as [_ C]. rewrite Forall_forall in C. simpl. apply rsum_ext. intros e He. destruct (C e He) as [C1 C2].
    unfold tp, ts in *. rewrite (IHa _ mask x C1), (IHb _ mask x C2); auto; intros v Hv; apply M; simpl; apply in_app_iff; auto.
Qed.
Definition masked (vs : list N) (mask x : inst) (f : inst -> R) : inst -> R := fun y => if agreesb vs mask x y then f y else 0.
Lemma agreesb_depends vs mask x : depends_on vs (agreesb vs mask x).
Proof.
  intros y z E. unfold agreesb. revert E. induction vs as [|v vs IH]; simpl; auto. intros E.
  rewrite (E v) by (left; auto). f_equal. apply IH. intros w Hw. apply E. right; auto.
Qed.
Lemma masked_depends vs mask x f : depends_on vs f -> depends_on vs (masked vs mask x f).
Proof. intros D y z E. unfold masked. rewrite (agreesb_depends vs mask x y z E), (D y z E). reflexivity. Qed.
Lemma agreesb_app a b mask x y : agreesb (a ++ b) mask x y = agreesb a mask x y && agreesb b mask x y.
Proof. unfold agreesb. apply forallb_app. Qed.
Lemma leaves_disjoint a b : NoDup (leaves a ++ leaves b) -> NoDup (leaves a) /\ NoDup (leaves b) /\ forall v, In v (leaves a) -> ~ In v (leaves b).
Proof. intros H. apply NoDup_app_inv in H as (A & B & C). auto. Qed.
Lemma sum_elems vt_a vt_b es (f g : telem -> inst -> R) x0 : NoDup (leaves vt_a ++ leaves vt_b) ->
  (forall e, In e es -> depends_on (leaves vt_a) (f e)) -> (forall e, In e es -> depends_on (leaves vt_b) (g e)) ->
  sum_over (leaves vt_a ++ leaves vt_b) (fun y => rsum (fun e => f e y * g e y * tw e) es) x0 =
  rsum (fun e => sum_over (leaves vt_a) (f e) x0 * sum_over (leaves vt_b) (g e) x0 * tw e) es.
Proof.
  intros ND D1 D2. rewrite sum_over_rsum. apply rsum_ext. intros e He.
  rewrite <- (sum_over_factor _ _ (f e) (g e)); auto.
  - rewrite Rmult_comm, <- sum_over_scal. apply sum_over_ext'. intros; ring.
  - apply leaves_disjoint in ND. tauto.
Qed.
Lemma tev_sum vt : NoDup (leaves vt) -> forall t mask x x0, conforms vt t -> tops_one t ->
  tev mask x t = sum_over (leaves vt) (masked (leaves vt) mask x (weight t)) x0.
Proof.
  induction vt as [v|a IHa b IHb]; intros ND t mask x x0 C T; destruct t as [l|w p q|es]; simpl in C; try contradiction.
  - subst v. simpl. unfold masked, agreesb. simpl. unfold lit_sat. rewrite !upd_same. rewrite !andb_true_r.
    destruct (mask (Z.abs_N l)); simpl; destruct (x (Z.abs_N l)), (Z.ltb 0 l); simpl; lra.
  - subst v. simpl. unfold masked, agreesb. simpl. rewrite !upd_same, !andb_true_r. simpl in T. destruct T as [T _].
    destruct (mask w); simpl; destruct (x w); simpl; lra.
  - apply conforms_dec in C as [_ C]. rewrite Forall_forall in C. apply all_nodes_dec in T as [_ T]. rewrite Forall_forall in T.
    simpl in ND. destruct (leaves_disjoint a b ND) as (NDa & NDb & DJ).
    transitivity (rsum (fun e => sum_over (leaves a) (masked (leaves a) mask x (weight (tp e))) x0 *
                                 sum_over (leaves b) (masked (leaves b) mask x (weight (ts e))) x0 * tw e) es).
    + simpl. apply rsum_ext. intros e He. destruct (C e He) as [C1 C2], (T e He) as [T1 T2].
      rewrite <- (IHa NDa _ mask x x0 C1 T1), <- (IHb NDb _ mask x x0 C2 T2). reflexivity.
    + change (leaves (VNode a b)) with (leaves a ++ leaves b). rewrite <- sum_elems; auto.
      * apply sum_over_ext'. intros y. unfold masked. rewrite agreesb_app, weight_dec.
        destruct (agreesb (leaves a) mask x y), (agreesb (leaves b) mask x y); simpl; auto.
        all: transitivity (rsum (fun _ : telem => 0) es); [apply rsum_ext; intros; lra|apply rsum_0].
      * intros e He. apply masked_depends, weight_depends, C; auto.
      * intros e He. apply masked_depends, weight_depends, C; auto.
Qed.
Lemma tev_empty t x : normalized t -> tev (fun _ => false) x t = 1.
Proof.
  unfold normalized. induction t as [l|v a b|es IH] using ptree_ind2; intros H; auto.
  apply all_nodes_dec in H as [H1 H]. simpl. rewrite Forall_forall in *. rewrite <- H1. apply rsum_ext. intros e He.
  destruct (H e He), (IH e He) as [I1 I2]. unfold tp, ts, tw in *. rewrite I1, I2; auto. lra.
Qed.
Lemma normalized_total vt t x0 : NoDup (leaves vt) -> conforms vt t -> normalized t -> sum_over (leaves vt) (weight t) x0 = 1.
Proof.
  intros ND C N. rewrite <- (tev_empty t x0 N), (tev_sum vt ND t _ x0 x0 C (normalized_tops_one t N)).
  apply sum_over_ext'. intros y. unfold masked.
  assert (agreesb (leaves vt) (fun _ => false) x0 y = true) as ->; auto. apply agreesb_spec. intros v _ H. discriminate.
Qed.

(** ** Consistency with evidence *)
Fixpoint tcons (mask e : inst) (t : ptree) : bool :=
  match t with
  | TLit l => if mask (Z.abs_N l) then lit_sat l e else true
  | TTop _ _ _ => true
  | TDec es => existsb (fun el => tcons mask e (fst (fst el)) && tcons mask e (snd (fst el))) es
  end.
Lemma tcons_spec vt : NoDup (leaves vt) -> forall t mask e, conforms vt t ->
  (tcons mask e t = true <-> exists y, agrees (leaves vt) mask e y /\ base t y = true).
Proof.
  induction vt as [v|a IHa b IHb]; intros ND t mask e C; destruct t as [l|w p q|es]; simpl in C; try contradiction.
  - subst v. simpl. unfold lit_sat. destruct (mask (Z.abs_N l)) eqn:M; split.
    + intros H. exists e. split; auto. intros v _ _. auto.
    + intros (y & A & B). rewrite <- (A (Z.abs_N l)); simpl; auto.
    + intros _. exists (fun _ => Z.ltb 0 l). split; [|apply eqb_reflx]. intros v [<-|[]] M'. congruence.
    + auto.
  - split; [|auto]. intros _. exists e. split; auto. intros v' _ _. auto.
  - destruct C as [_ C]. rewrite Forall_forall in C. simpl in ND. destruct (leaves_disjoint a b ND) as (NDa & NDb & DJ).
    simpl. rewrite existsb_exists. split.
    + intros (el & He & H). apply andb_true_iff in H as [H1 H2]. destruct (C el He) as [C1 C2].
      apply (IHa NDa _ _ _ C1) in H1 as (y1 & A1 & B1). apply (IHb NDb _ _ _ C2) in H2 as (y2 & A2 & B2).
      exists (combine_inst (leaves a) y1 y2). split.
      * intros v Hv Hm. apply in_app_iff in Hv as [Hv|Hv].
        -- rewrite combine_in by auto. auto.
        -- rewrite combine_out; auto. intros G. eapply DJ; eauto.
      * apply existsb_exists. exists el. split; auto. apply andb_true_iff. split.
        -- rewrite <- B1. apply (base_depends a _ C1). intros v Hv. apply combine_in; auto.
        -- rewrite <- B2. apply (base_depends b _ C2). intros v Hv. apply combine_out. intros G. eapply DJ; eauto.
    + intros (y & A & B). apply existsb_exists in B as (el & He & H). apply andb_true_iff in H as [H1 H2]. destruct (C el He) as [C1 C2].
      exists el. split; auto. apply andb_true_iff. split.
      * apply (IHa NDa _ _ _ C1). exists y. split; auto. intros v Hv. apply A, in_app_iff; auto.
      * apply (IHb NDb _ _ _ C2). exists y. split; auto. intros v Hv. apply A, in_app_iff; auto.
Qed.
Lemma tcons_full vt : forall t mask e, conforms vt t -> (forall v, In v (leaves vt) -> mask v = true) -> tcons mask e t = base t e.
Proof.
  induction vt as [v|a IHa b IHb]; intros t mask e C M; destruct t as [l|w p q|es]; simpl in C; try contradiction.
  - subst. simpl. rewrite M by (left; auto). reflexivity.
  - reflexivity.
  - destruct C as [_ C]. rewrite Forall_forall in C. simpl. apply existsb_ext. intros el He. destruct (C el He) as [C1 C2].
    unfold tp, ts in *. rewrite (IHa _ mask e C1), (IHb _ mask e C2); auto; intros v Hv; apply M; simpl; apply in_app_iff; auto.
Qed.

(** ** Model count *)
Definition nsum {A} (f : A -> N) (l : list A) : N := fold_right (fun a s => (f a + s)%N) 0%N l.
Fixpoint tcount (t : ptree) : N :=
  match t with
  | TLit _ => 1
  | TTop _ _ _ => 2
  | TDec es => nsum (fun e => tcount (fst (fst e)) * tcount (snd (fst e)))%N es
  end.
Definition ind (b : bool) : R := if b then 1 else 0.
Lemma ind_and a b : ind (a && b) = ind a * ind b. Proof. destruct a, b; unfold ind; simpl; lra. Qed.
Lemma ind_exists es x : ForallOrdPairs disj es ->
  ind (existsb (fun e => base (tp e) x && base (ts e) x) es) = rsum (fun e => ind (base (tp e) x) * ind (base (ts e) x)) es.
Proof.
  induction 1 as [|e es He F IH]; simpl; auto. rewrite <- IH, <- ind_and.
  destruct (base (tp e) x && base (ts e) x) eqn:E; simpl; [|unfold ind; lra].
  apply andb_true_iff in E as [E1 E2].
  assert (existsb (fun e => base (tp e) x && base (ts e) x) es = false) as ->.
  { apply not_true_is_false. intros G. apply existsb_exists in G as (e' & H1 & H2). rewrite Forall_forall in He.
    specialize (He e' H1 x). rewrite E1 in He. simpl in He. rewrite He in H2. discriminate. }
  unfold ind; lra.
Qed.
Lemma IZR_nsum {A} (f : A -> N) l : IZR (Z.of_N (nsum f l)) = rsum (fun a => IZR (Z.of_N (f a))) l.
Proof. induction l; simpl; auto. rewrite N2Z.inj_add, plus_IZR, IHl. reflexivity. Qed.
Lemma tcount_sum vt : NoDup (leaves vt) -> forall t x0, conforms vt t -> deterministic t ->
  IZR (Z.of_N (tcount t)) = sum_over (leaves vt) (fun y => ind (base t y)) x0.
Proof.
  induction vt as [v|a IHa b IHb]; intros ND t x0 C D; destruct t as [l|w p q|es]; simpl in C; try contradiction.
  - subst. simpl. unfold lit_sat. rewrite !upd_same. destruct (Z.ltb 0 l); unfold ind; simpl; lra.
  - simpl. unfold ind. simpl. lra.
  - destruct C as [_ C]. rewrite Forall_forall in C. apply all_nodes_dec in D as [D0 D]. rewrite Forall_forall in D.
    simpl in ND. destruct (leaves_disjoint a b ND) as (NDa & NDb & DJ). simpl tcount. rewrite IZR_nsum.
    transitivity (rsum (fun e => sum_over (leaves a) (fun y => ind (base (tp e) y)) x0 * sum_over (leaves b) (fun y => ind (base (ts e) y)) x0) es).
    + apply rsum_ext. intros e He. destruct (C e He) as [C1 C2], (D e He) as [D1 D2]. rewrite N2Z.inj_mul, mult_IZR.
      rewrite <- (IHa NDa _ x0 C1 D1), <- (IHb NDb _ x0 C2 D2). reflexivity.
    + simpl leaves. symmetry. transitivity (sum_over (leaves a ++ leaves b) (fun y => rsum (fun e => ind (base (tp e) y) * ind (base (ts e) y)) es) x0).
      * apply sum_over_ext'. intros y. rewrite base_dec. apply ind_exists. exact D0.
      * rewrite sum_over_rsum. apply rsum_ext. intros e He. destruct (C e He) as [C1 C2]. apply sum_over_factor; auto.
        -- intros y z E. f_equal. apply (base_depends a _ C1); auto.
        -- intros y z E. f_equal. apply (base_depends b _ C2); auto.
Qed.
Lemma tcount_spec vt t x0 : NoDup (leaves vt) -> conforms vt t -> deterministic t -> tcount t = count_over (leaves vt) (base t) x0.
Proof.
  intros ND C D. pose proof (tcount_sum vt ND t x0 C D) as H. unfold ind in H. rewrite <- (count_sum (leaves vt) (base t) x0) in H.
  apply eq_IZR in H. lia.
Qed.

(** ** Most probable explanation *)
(** scan of the elements: best value so far, its index, next index *)
Definition scan (vs : list R) : R * nat :=
  fst (fold_left (fun st v => let '(best, idx, k) := st in if Rlt_dec best v then (v, k, S k) else (best, idx, S k)) vs (0, 0%nat, 0%nat)).
Fixpoint tmpe (t : ptree) : R * nat :=
  match t with
  | TLit _ => (1, 0%nat)
  | TTop _ a b => if Rlt_dec b a then (a, 1%nat) else (b, 0%nat)
  | TDec es => scan (map (fun e => fst (tmpe (fst (fst e))) * fst (tmpe (snd (fst e))) * snd e) es)
  end.
(** the variables set to true *)
Fixpoint tbits (t : ptree) : inst :=
  match t with
  | TLit l => fun v => N.eqb v (Z.abs_N l) && Z.ltb 0 l
  | TTop w _ _ => fun v => N.eqb v w && negb (Nat.eqb (snd (tmpe t)) 0)
  | TDec es => nth (snd (tmpe t)) (map (fun e v => tbits (fst (fst e)) v || tbits (snd (fst e)) v) es) (fun _ => false)
  end.
Lemma tbits_dec es e : nth_error es (snd (tmpe (TDec es))) = Some e -> forall v, tbits (TDec es) v = tbits (tp e) v || tbits (ts e) v.
Proof.
  cbn [tbits]. generalize (snd (tmpe (TDec es))). intros k E v.
  erewrite nth_error_nth; [|rewrite nth_error_map, E; reflexivity]. reflexivity.
Qed.
Lemma scan_gen vs : forall best idx k pre, length pre = k -> (forall v, In v pre -> v <= best) -> 0 <= best ->
  (best = 0 /\ idx = 0%nat \/ nth_error pre idx = Some best) ->
  let r := fst (fold_left (fun st v => let '(best, idx, k) := st in if Rlt_dec best v then (v, k, S k) else (best, idx, S k)) vs (best, idx, k)) in
  (forall v, In v (pre ++ vs) -> v <= fst r) /\ 0 <= fst r /\ (fst r = 0 /\ snd r = 0%nat \/ nth_error (pre ++ vs) (snd r) = Some (fst r)).
Proof.
  induction vs as [|v vs IH]; intros best idx k pre L H1 H2 H3.
  - simpl. rewrite app_nil_r. auto.
  - simpl. replace (pre ++ v :: vs) with ((pre ++ [v]) ++ vs) by (rewrite <- app_assoc; auto).
    destruct (Rlt_dec best v) as [G|G]; apply IH; try (rewrite app_length; simpl; lia); try lra.
    + intros w Hw. apply in_app_iff in Hw as [Hw|[<-|[]]]; [|lra]. specialize (H1 w Hw). lra.
    + right. rewrite nth_error_app2 by lia. rewrite L, Nat.sub_diag. reflexivity.
    + intros w Hw. apply in_app_iff in Hw as [Hw|[<-|[]]]; [auto|lra].
    + destruct H3 as [H3|H3]; [left; auto|right]. rewrite nth_error_app1; auto. apply nth_error_Some. congruence.
Qed.
Lemma scan_spec vs : vs <> [] -> (forall v, In v vs -> 0 <= v) ->
  nth_error vs (snd (scan vs)) = Some (fst (scan vs)) /\ (forall v, In v vs -> v <= fst (scan vs)).
Proof.
  intros NE NN. pose proof (scan_gen vs 0 0%nat 0%nat []) as G. fold (scan vs) in G. cbn zeta in G. cbn [app] in G.
  destruct G as (A & B & C); auto; [intros v []|lra|]. split; auto. destruct C as [[C1 C2]|C]; auto. rewrite C1, C2 in *.
  destruct vs as [|v vs]; [congruence|]. cbn [nth_error].
  f_equal. specialize (A v (or_introl eq_refl)). specialize (NN v (or_introl eq_refl)). lra.
Qed.
Lemma tmpe_nonneg t : nonneg t -> 0 <= fst (tmpe t).
Proof.
  unfold nonneg. destruct t as [l|v a b|es]; intros H; simpl.
  - lra.
  - simpl in H. destruct (Rlt_dec b a); simpl; lra.
  - destruct (scan_gen (map (fun e => fst (tmpe (fst (fst e))) * fst (tmpe (snd (fst e))) * snd e) es) 0 0%nat 0%nat []) as (A & B & C); auto; [intros v []|lra].
Qed.
Lemma tmpe_elem es : nonneg (TDec es) -> es <> [] ->
  exists e, nth_error es (snd (tmpe (TDec es))) = Some e /\ fst (tmpe (TDec es)) = fst (tmpe (tp e)) * fst (tmpe (ts e)) * tw e /\
    forall e', In e' es -> fst (tmpe (tp e')) * fst (tmpe (ts e')) * tw e' <= fst (tmpe (TDec es)).
Proof.
  intros NN NE. apply all_nodes_dec in NN as [N0 N]. rewrite Forall_forall in *.
  destruct (scan_spec (map (fun e => fst (tmpe (fst (fst e))) * fst (tmpe (snd (fst e))) * snd e) es)) as [A B].
  - destruct es; simpl; congruence.
  - intros v Hv. apply in_map_iff in Hv as (e & <- & He). destruct (N e He) as [N1 N2].
    apply Rmult_le_pos; [apply Rmult_le_pos; apply tmpe_nonneg; auto|]. apply N0; auto.
  - cbn [tmpe]. rewrite nth_error_map in A. destruct (nth_error es _) as [e|] eqn:E; [|discriminate]. simpl in A. injection A as A.
    exists e. split; auto. split; [symmetry; exact A|]. intros e' He'. apply B. apply in_map_iff. exists e'. auto.
Qed.
Lemma tbits_in vt : forall t, conforms vt t -> nonneg t -> forall v, tbits t v = true -> In v (leaves vt).
Proof.
  induction vt as [v|a IHa b IHb]; intros t C NN w H; destruct t as [l|w' p q|es]; simpl in C; try contradiction.
  - simpl in H. apply andb_true_iff in H as [H _]. apply N.eqb_eq in H. left. congruence.
  - cbn [tbits] in H. apply andb_true_iff in H as [H _]. apply N.eqb_eq in H. left. congruence.
  - destruct C as [NE C]. rewrite Forall_forall in C. destruct (tmpe_elem es NN NE) as (e & E & _).
    rewrite (tbits_dec es e E) in H. apply nth_error_In in E. destruct (C e E) as [C1 C2]. apply all_nodes_dec in NN as [_ N].
    rewrite Forall_forall in N. destruct (N e E) as [N1 N2]. simpl. apply in_app_iff. apply orb_true_iff in H as [H|H]; eauto.
Qed.
(** Any instantiation agreeing with the reported bits on the variables of the vtree is a model with the reported weight. *)
Lemma tmpe_attained vt : NoDup (leaves vt) -> forall t, conforms vt t -> nonneg t -> deterministic t ->
  base t (tbits t) = true /\ weight t (tbits t) = fst (tmpe t).
Proof.
  induction vt as [v|a IHa b IHb]; intros ND t C NN D; destruct t as [l|w p q|es]; simpl in C; try contradiction.
  - simpl. unfold lit_sat. rewrite N.eqb_refl. simpl. rewrite eqb_reflx. auto.
  - simpl. rewrite N.eqb_refl. split; auto. destruct (Rlt_dec q p); reflexivity.
  - destruct C as [NE C]. rewrite Forall_forall in C. destruct (tmpe_elem es NN NE) as (e & E & V & _).
    pose proof (tbits_dec es e E) as TB. pose proof E as I. apply nth_error_In in I. destruct (C e I) as [C1 C2].
    apply all_nodes_dec in NN as [N0 N]. rewrite Forall_forall in N. destruct (N e I) as [N1 N2].
    apply all_nodes_dec in D as [D0 D]. rewrite Forall_forall in D. destruct (D e I) as [D1 D2].
    simpl in ND. destruct (leaves_disjoint a b ND) as (NDa & NDb & DJ).
    destruct (IHa NDa _ C1 N1 D1) as [B1 W1]. destruct (IHb NDb _ C2 N2 D2) as [B2 W2].
    assert (agree_on (leaves a) (tbits (TDec es)) (tbits (tp e))) as A1.
    { intros v Hv. rewrite TB. destruct (tbits (ts e) v) eqn:G; [|apply orb_false_r]. apply (tbits_in b _ C2 N2) in G. exfalso. eapply DJ; eauto. }
    assert (agree_on (leaves b) (tbits (TDec es)) (tbits (ts e))) as A2.
    { intros v Hv. rewrite TB. destruct (tbits (tp e) v) eqn:G; [|reflexivity]. apply (tbits_in a _ C1 N1) in G. exfalso. eapply DJ; eauto. }
    set (x := tbits (TDec es)) in *.
    assert (base (tp e) x = true) as BP by (rewrite (base_depends a _ C1 _ _ A1); auto).
    assert (base (ts e) x = true) as BS by (rewrite (base_depends b _ C2 _ _ A2); auto).
    split.
    + rewrite base_dec. apply existsb_exists. exists e. rewrite BP, BS. auto.
    + rewrite V, <- W1, <- W2, <- (weight_depends a _ C1 _ _ A1), <- (weight_depends b _ C2 _ _ A2). rewrite weight_dec.
      clear - D0 I BP E. clearbody x. revert E. generalize (snd (tmpe (TDec es))). intros k E.
      assert (forall e', In e' es -> base (tp e') x = true -> e' = e) as U.
      { clear E. intros e' I' B'. induction D0 as [|f es F FO IH]; [contradiction|]. rewrite Forall_forall in F.
        destruct I as [->|I], I' as [->|I']; auto.
        - specialize (F e' I' x). rewrite BP, B' in F. discriminate.
        - specialize (F e I x). rewrite BP, B' in F. discriminate. }
      (* exactly one occurrence *)
      assert (forall l, ForallOrdPairs disj l -> (forall e', In e' l -> base (tp e') x = true -> e' = e) -> In e l ->
                rsum (fun e0 => weight (tp e0) x * weight (ts e0) x * tw e0) l = weight (tp e) x * weight (ts e) x * tw e) as K.
      { clear - BP. induction l as [|f l IH]; intros FO U Il; [contradiction|]. inversion FO as [|? ? F FO']; subst. rewrite Forall_forall in F. simpl.
        destruct (base (tp f) x) eqn:Bf.
        - assert (f = e) as -> by (apply U; simpl; auto). rewrite (rsum_ext _ (fun _ => 0)); [rewrite rsum_0; lra|].
          intros g Hg. rewrite (weight_zero_off_base (tp g) x); [lra|]. specialize (F g Hg x). rewrite BP in F. simpl in F. auto.
        - destruct Il as [->|Il]; [congruence|]. rewrite (weight_zero_off_base (tp f) x Bf), IH; auto; [lra|]. intros; apply U; simpl; auto. }
      apply K; auto.
Qed.
Lemma tmpe_optimal vt : forall t x, conforms vt t -> nonneg t -> deterministic t -> weight t x <= fst (tmpe t).
Proof.
  induction vt as [v|a IHa b IHb]; intros t x C NN D; destruct t as [l|w p q|es]; simpl in C; try contradiction.
  - simpl. destruct (lit_sat l x); lra.
  - simpl. destruct (Rlt_dec q p), (x w); simpl; lra.
  - destruct C as [NE C]. destruct (tmpe_elem es NN NE) as (e & E & V & M). pose proof (tmpe_nonneg _ NN) as T0.
    set (m := fst (tmpe (TDec es))) in *. clearbody m. clear V E NE.
    apply all_nodes_dec in NN as [N0 N]. apply all_nodes_dec in D as [D0 D]. rewrite weight_dec.
    induction D0 as [|f es F FO IH]; [exact T0|]. inversion C as [|? ? [C1 C2] C']; subst. inversion N as [|? ? [N1 N2] N']; subst. inversion D as [|? ? [D1 D2] D']; subst. inversion N0; subst.
    rewrite Forall_forall in F. simpl. destruct (base (tp f) x) eqn:Bf.
    + rewrite (rsum_ext _ (fun _ => 0)); [rewrite rsum_0|].
      * specialize (M f (or_introl eq_refl)). specialize (IHa _ x C1 N1 D1). specialize (IHb _ x C2 N2 D2).
        pose proof (weight_nonneg _ x N1). pose proof (weight_nonneg _ x N2).
        assert (weight (tp f) x * weight (ts f) x <= fst (tmpe (tp f)) * fst (tmpe (ts f))) by (apply Rmult_le_compat; auto).
        assert (weight (tp f) x * weight (ts f) x * tw f <= fst (tmpe (tp f)) * fst (tmpe (ts f)) * tw f) by (apply Rmult_le_compat_r; auto). lra.
      * intros g Hg. rewrite (weight_zero_off_base (tp g) x); [lra|]. specialize (F g Hg x). rewrite Bf in F. simpl in F. auto.
    + rewrite (weight_zero_off_base (tp f) x Bf). specialize (IH C'). 
      assert (rsum (fun e0 => weight (tp e0) x * weight (ts e0) x * tw e0) es <= m); [|lra]. apply IH; auto. intros; apply M; simpl; auto.
Qed.

(** ** Marginals: mass of the leaves of variable v with value b, assuming unit mass elsewhere *)
Fixpoint tmarg (v : N) (s : bool) (t : ptree) : R :=
  match t with
  | TLit l => if N.eqb (Z.abs_N l) v && Bool.eqb (Z.ltb 0 l) s then 1 else 0
  | TTop w a b => if N.eqb w v then (if s then a else b) else 0
  | TDec es => rsum (fun e => (tmarg v s (fst (fst e)) + tmarg v s (snd (fst e))) * snd e) es
  end.
Lemma tmarg_out vt : forall t v s, conforms vt t -> ~ In v (leaves vt) -> tmarg v s t = 0.
Proof.
  induction vt as [w|a IHa b IHb]; intros t v s C NI; destruct t as [l|w' p q|es]; simpl in C; try contradiction.
  - subst. simpl in *. destruct (N.eqb (Z.abs_N l) v) eqn:E; auto. apply N.eqb_eq in E. subst. tauto.
  - subst. simpl in *. destruct (N.eqb w v) eqn:E; auto. apply N.eqb_eq in E. subst. tauto.
  - destruct C as [_ C]. rewrite Forall_forall in C. simpl. simpl in NI. rewrite in_app_iff in NI.
    transitivity (rsum (fun _ : telem => 0) es); [|apply rsum_0]. apply rsum_ext. intros e He. destruct (C e He) as [C1 C2]. unfold tp, ts in *.
    rewrite (IHa _ v s C1), (IHb _ v s C2) by tauto. lra.
Qed.
Lemma tev_out vt : forall t mask x, conforms vt t -> normalized t -> (forall v, In v (leaves vt) -> mask v = false) -> tev mask x t = 1.
Proof.
  induction vt as [w|a IHa b IHb]; intros t mask x C N M; destruct t as [l|w' p q|es]; simpl in C; try contradiction.
  - subst. simpl. rewrite M by (left; auto). reflexivity.
  - subst. simpl. rewrite M by (left; auto). reflexivity.
  - destruct C as [_ C]. rewrite Forall_forall in C. apply all_nodes_dec in N as [N0 N]. rewrite Forall_forall in N. simpl. rewrite <- N0.
    apply rsum_ext. intros e He. destruct (C e He) as [C1 C2], (N e He) as [N1 N2]. unfold tp, ts, tw in *.
    rewrite (IHa _ mask x C1 N1), (IHb _ mask x C2 N2); [lra| |]; intros v Hv; apply M; simpl; apply in_app_iff; auto.
Qed.
(** Single-variable evidence *)
Definition only (v : N) : inst := fun w => N.eqb w v.
Lemma tmarg_tev vt : NoDup (leaves vt) -> forall t v s, conforms vt t -> normalized t -> In v (leaves vt) -> tmarg v s t = tev (only v) (fun _ => s) t.
Proof.
  induction vt as [w|a IHa b IHb]; intros ND t v s C N I; destruct t as [l|w' p q|es]; simpl in C; try contradiction.
  - subst. destruct I as [<-|[]]. simpl. unfold only, lit_sat. rewrite N.eqb_refl. simpl. destruct s, (Z.ltb 0 l); reflexivity.
  - subst. destruct I as [<-|[]]. simpl. unfold only. rewrite N.eqb_refl. reflexivity.
  - destruct C as [_ C]. rewrite Forall_forall in C. apply all_nodes_dec in N as [N0 N]. rewrite Forall_forall in N. simpl in ND. destruct (leaves_disjoint a b ND) as (NDa & NDb & DJ).
    simpl. apply rsum_ext. intros e He. destruct (C e He) as [C1 C2], (N e He) as [N1 N2]. f_equal. fold (tp e) (ts e). simpl in I. apply in_app_iff in I as [I|I].
    + rewrite (IHa NDa _ v s C1 N1 I), (tmarg_out b _ v s C2 (DJ v I)), (tev_out b _ _ _ C2 N2); [lra|].
      intros w Hw. unfold only. apply N.eqb_neq. intros ->. eapply DJ; eauto.
    + assert (~ In v (leaves a)) as NI by (intros G; eapply DJ; eauto).
      rewrite (IHb NDb _ v s C2 N2 I), (tmarg_out a _ v s C1 NI), (tev_out a _ _ _ C1 N1); [lra|].
      intros w Hw. unfold only. apply N.eqb_neq. intros ->. tauto.
Qed.
Lemma tmarg_total t v : normalized t -> forall vt, NoDup (leaves vt) -> conforms vt t -> In v (leaves vt) -> tmarg v true t + tmarg v false t = 1.
Proof.
  intros N vt ND C I. rewrite !(tmarg_tev vt ND t v _ C N I).
  rewrite !(tev_sum vt ND t _ _ (fun _ => false) C (normalized_tops_one t N)), <- sum_over_plus.
  rewrite <- (normalized_total vt t (fun _ => false) ND C N). apply sum_over_ext'. intros y. unfold masked.
  assert (forall s, agreesb (leaves vt) (only v) (fun _ => s) y = Bool.eqb (y v) s) as K.
  { intros s. apply eq_true_iff_eq. rewrite agreesb_spec, eqb_true_iff. unfold agrees, only. split.
    - intros H. apply H; auto. apply N.eqb_refl.
    - intros H w _ E. apply N.eqb_eq in E. subst w. auto. }
  rewrite !K. destruct (y v); simpl; lra.
Qed.
