(** A library with the behaviour that is assumed of libsdd, for every vtree: shows that [libs_ok] can be met and lets the examples
    be computed.  (It is not a model of how libsdd works.) *)
From Coq Require Import Ascii String.
From Verif Require Import Base Vtree VtreeProofs Spec SpecProofs RepProofs Sdd SddProofs SddExamples Text Cnf CnfProofs.

(** ** Building a trimmed SDD for a Boolean function *)
Definition x0 : inst := fun _ => false.
Fixpoint insts (D : list N) (x : inst) : list inst :=
  match D with [] => [x] | v :: D' => insts D' (upd x v true) ++ insts D' (upd x v false) end.
Definition eq_on (D : list N) (x y : inst) : bool := forallb (fun v => Bool.eqb (x v) (y v)) D.
Definition merge (D : list N) (x y : inst) : inst := fun v => if NmemB v D then x v else y v.
Fixpoint build (t : vtree) (p : path) (f : inst -> bool) : stree :=
  match t with
  | Leaf v =>
      match f (upd x0 v true), f (upd x0 v false) with
      | true, true => XT
      | false, false => XF
      | true, false => XL p (Z.of_N v)
      | false, true => XL p (- Z.of_N v)%Z
      end
  | VNode a b =>
      let As := insts (leaves a) x0 in
      let Bs := insts (leaves b) x0 in
      if forallb (fun x => forallb (fun y => Bool.eqb (f (merge (leaves a) x y)) (f (merge (leaves a) x x0))) Bs) As then build a (false :: p) f
      else if forallb (fun y => forallb (fun x => Bool.eqb (f (merge (leaves a) x y)) (f (merge (leaves a) x0 y))) As) Bs then build b (true :: p) f
      else XD p (map (fun x => (build a (false :: p) (eq_on (leaves a) x), build b (true :: p) (fun y => f (merge (leaves a) x y)))) As)
  end.
Definition local (D : list N) (f : inst -> bool) : Prop := forall x y, (forall v, In v D -> x v = y v) -> f x = f y.
Lemma eq_on_iff D x y : eq_on D x y = true <-> forall v, In v D -> x v = y v.
Proof.
  unfold eq_on. rewrite forallb_forall. split; intros H v Hv; specialize (H v Hv); [apply eqb_prop; auto|rewrite H; apply eqb_reflx].
Qed.
Lemma insts_complete D : forall x y, exists z, In z (insts D x) /\ (forall v, In v D -> z v = y v) /\ (forall v, ~ In v D -> z v = x v).
Proof.
  induction D as [|u D IH]; intros x y.
  - exists x. split; [left; auto|]. split; auto. intros v [].
  - destruct (IH (upd x u (y u)) y) as (z & A & B & C). exists z. split; [|split].
    + simpl. apply in_or_app. destruct (y u); auto.
    + intros v [<-|Hv]; auto. destruct (in_dec N.eq_dec u D) as [H|H]; auto. rewrite C by auto. unfold upd. rewrite N.eqb_refl. auto.
    + intros v Hv. rewrite C by (intros Z; apply Hv; right; auto). unfold upd. destruct (N.eqb_spec v u); auto. exfalso. apply Hv. left; auto.
Qed.
Lemma insts_off D : forall x z, In z (insts D x) -> forall v, ~ In v D -> z v = x v.
Proof.
  induction D as [|u D IH]; intros x z H v Hv; simpl in H.
  - destruct H as [<-|[]]. auto.
  - apply in_app_or in H as [H|H]; rewrite (IH _ _ H v) by (intros Z; apply Hv; right; auto); unfold upd; destruct (N.eqb_spec v u); auto; exfalso; apply Hv; left; auto.
Qed.
Lemma FOP_app {A} (R : A -> A -> Prop) l1 : forall l2, ForallOrdPairs R l1 -> ForallOrdPairs R l2 -> (forall a b, In a l1 -> In b l2 -> R a b) ->
  ForallOrdPairs R (l1 ++ l2).
Proof.
  induction l1 as [|a l1 IH]; intros l2 F1 F2 H; simpl; auto. inversion F1; subst. constructor.
  - apply Forall_app. split; auto. apply Forall_forall. intros b Hb. apply H; [left|]; auto.
  - apply IH; auto. intros x y Hx Hy. apply H; [right|]; auto.
Qed.
Lemma FOP_imp {A} (R R' : A -> A -> Prop) l : (forall a b, R a b -> R' a b) -> ForallOrdPairs R l -> ForallOrdPairs R' l.
Proof. intros H. induction 1 as [|a l F1 F2 IH]; constructor; auto. eapply Forall_impl; [|exact F1]. auto. Qed.
Lemma insts_distinct D : NoDup D -> forall x, ForallOrdPairs (fun y z => exists v, In v D /\ y v <> z v) (insts D x).
Proof.
  induction D as [|u D IH]; intros ND x; simpl.
  - constructor; constructor.
  - inversion ND; subst. apply FOP_app.
    + eapply (FOP_imp (fun y z => exists v, In v D /\ y v <> z v)); [|apply IH; auto]. intros y z (v & A & B). exists v. split; [right|]; auto.
    + eapply (FOP_imp (fun y z => exists v, In v D /\ y v <> z v)); [|apply IH; auto]. intros y z (v & A & B). exists v. split; [right|]; auto.
    + intros y z Hy Hz. exists u. split; [left; auto|]. rewrite (insts_off _ _ _ Hy), (insts_off _ _ _ Hz) by auto. unfold upd. rewrite N.eqb_refl. discriminate.
Qed.
Lemma leaves_nonempty t : exists v, In v (leaves t).
Proof. induction t as [v|a [v Hv] b IHb]; [exists v; left; auto|]. exists v. simpl. apply in_or_app. auto. Qed.
Lemma merge_in D x y v : In v D -> merge D x y v = x v.
Proof. intros H. unfold merge. apply NmemB_In in H. rewrite H. auto. Qed.
Lemma merge_out D x y v : ~ In v D -> merge D x y v = y v.
Proof. intros H. unfold merge. apply NmemB_false in H. rewrite H. auto. Qed.
Lemma below_up bb p t : below (bb :: p) t -> below p t.
Proof. intros [u Hu]. exists (u ++ [bb]). rewrite <- app_assoc. exact Hu. Qed.

Lemma build_spec vt t : forall p f, subtree vt p = Some t -> NoDup (leaves t) -> (forall v, In v (leaves t) -> v <> 0%N) -> local (leaves t) f ->
  swf vt (build t p f) /\ (forall y, models (build t p f) y = f y) /\ (build t p f = XT \/ build t p f = XF \/ below p (build t p f)).
Proof.
  induction t as [v|a IHa b IHb]; intros p f ST ND NZ LF.
  - assert (forall y, f y = f (upd x0 v (y v))) as FV.
    { intros y. apply LF. intros w [<-|[]]. unfold upd. rewrite N.eqb_refl. auto. }
    simpl. assert (v <> 0%N) as V0 by (apply NZ; left; auto).
    destruct (f (upd x0 v true)) eqn:E1, (f (upd x0 v false)) eqn:E2.
    + split; [exact I|]. split; auto. intros y. rewrite FV. simpl. destruct (y v); auto.
    + split; [split; [replace (Z.abs_N (Z.of_N v)) with v by lia; auto|lia]|]. split; [|right; right; exists []; auto].
      intros y. rewrite FV. simpl. unfold lit_sat. replace (Z.abs_N (Z.of_N v)) with v by lia.
      replace (0 <? Z.of_N v)%Z with true by (symmetry; apply Z.ltb_lt; lia). destruct (y v); auto.
    + split; [split; [replace (Z.abs_N (- Z.of_N v)) with v by lia; auto|lia]|]. split; [|right; right; exists []; auto].
      intros y. rewrite FV. simpl. unfold lit_sat. replace (Z.abs_N (- Z.of_N v)) with v by lia.
      replace (0 <? - Z.of_N v)%Z with false by (symmetry; apply Z.ltb_ge; lia). destruct (y v); auto.
    + split; [exact I|]. split; auto. intros y. rewrite FV. simpl. destruct (y v); auto.
  - simpl leaves in *. pose proof ND as ND0. apply NoDup_app_inv in ND as (NDa & NDb & DIS).
    assert (subtree vt (false :: p) = Some a) as STa by (simpl; rewrite ST; auto).
    assert (subtree vt (true :: p) = Some b) as STb by (simpl; rewrite ST; auto).
    assert (forall v, In v (leaves a) -> v <> 0%N) as NZa by (intros; apply NZ, in_or_app; auto).
    assert (forall v, In v (leaves b) -> v <> 0%N) as NZb by (intros; apply NZ, in_or_app; auto).
    set (As := insts (leaves a) x0). set (Bs := insts (leaves b) x0).
    (* every value of f is a value at enumerated instantiations *)
    assert (forall y, exists xa yb, In xa As /\ In yb Bs /\ (forall v, In v (leaves a) -> xa v = y v) /\ (forall v, In v (leaves b) -> yb v = y v) /\
       f y = f (merge (leaves a) xa yb)) as EN.
    { intros y. destruct (insts_complete (leaves a) x0 y) as (xa & A1 & A2 & _). destruct (insts_complete (leaves b) x0 y) as (yb & B1 & B2 & _).
      exists xa, yb. repeat (split; auto). apply LF. intros v Hv. apply in_app_or in Hv as [Hv|Hv].
      - rewrite merge_in by auto. symmetry; auto.
      - rewrite merge_out by (intros Z; eapply DIS; eauto). symmetry; auto. }
    cbn [build]. cbv zeta. fold As Bs.
    destruct (forallb (fun x => forallb (fun y => Bool.eqb (f (merge (leaves a) x y)) (f (merge (leaves a) x x0))) Bs) As) eqn:I1;
      [|destruct (forallb (fun y => forallb (fun x => Bool.eqb (f (merge (leaves a) x y)) (f (merge (leaves a) x0 y))) As) Bs) eqn:I2].
    + assert (local (leaves a) f) as LA.
      { intros x y H. destruct (EN x) as (xa & yb & A1 & B1 & A2 & B2 & ->). destruct (EN y) as (xa' & yb' & A1' & B1' & A2' & B2' & ->).
        rewrite forallb_forall in I1. pose proof (I1 _ A1) as J. pose proof (I1 _ A1') as J'. rewrite forallb_forall in J, J'.
        specialize (J _ B1). specialize (J' _ B1'). apply eqb_prop in J, J'. rewrite J, J'. apply LF. intros v Hv.
        destruct (in_dec N.eq_dec v (leaves a)) as [Ha|Ha].
        - rewrite !merge_in by auto. rewrite A2, A2' by auto. auto.
        - rewrite !merge_out by auto. auto. }
      destruct (IHa (false :: p) f STa NDa NZa LA) as (A & B & C). split; auto. split; auto.
      destruct C as [C|[C|C]]; auto. right; right. eapply below_up; eauto.
    + assert (local (leaves b) f) as LB.
      { intros x y H. destruct (EN x) as (xa & yb & A1 & B1 & A2 & B2 & ->). destruct (EN y) as (xa' & yb' & A1' & B1' & A2' & B2' & ->).
        rewrite forallb_forall in I2. pose proof (I2 _ B1) as J. pose proof (I2 _ B1') as J'. rewrite forallb_forall in J, J'.
        specialize (J _ A1). specialize (J' _ A1'). apply eqb_prop in J, J'. rewrite J, J'. apply LF. intros v Hv.
        destruct (in_dec N.eq_dec v (leaves a)) as [Ha|Ha].
        - rewrite !merge_in by auto. auto.
        - apply in_app_or in Hv as [Hv|Hv]; [contradiction|]. rewrite !merge_out by auto. rewrite B2, B2' by auto. auto. }
      destruct (IHb (true :: p) f STb NDb NZb LB) as (A & B & C). split; auto. split; auto.
      destruct C as [C|[C|C]]; auto. right; right. eapply below_up; eauto.
    + clear I2.
      assert (forall x, local (leaves a) (eq_on (leaves a) x)) as LP.
      { intros x y z H. apply eq_true_iff_eq. rewrite !eq_on_iff. split; intros H' v Hv; rewrite H' by auto; [auto|symmetry; auto]. }
      assert (forall x, local (leaves b) (fun y => f (merge (leaves a) x y))) as LS.
      { intros x y z H. apply LF. intros v Hv. destruct (in_dec N.eq_dec v (leaves a)) as [Ha|Ha].
        - rewrite !merge_in by auto. auto.
        - apply in_app_or in Hv as [Hv|Hv]; [contradiction|]. rewrite !merge_out by auto. auto. }
      assert (forall x, swf vt (build a (false :: p) (eq_on (leaves a) x)) /\ (forall y, models (build a (false :: p) (eq_on (leaves a) x)) y = eq_on (leaves a) x y) /\
         below (false :: p) (build a (false :: p) (eq_on (leaves a) x))) as PR.
      { intros x. destruct (IHa (false :: p) (eq_on (leaves a) x) STa NDa NZa (LP x)) as (A & B & C). split; auto. split; auto.
        destruct C as [C|[C|C]]; auto; exfalso; rewrite C in B.
        - destruct (leaves_nonempty a) as [w Hw]. specialize (B (fun v => negb (x v))). simpl in B. symmetry in B. rewrite eq_on_iff in B.
          specialize (B w Hw). destruct (x w); discriminate.
        - specialize (B x). simpl in B. symmetry in B. rewrite <- not_true_iff_false in B. apply B. rewrite eq_on_iff. auto. }
      assert (forall x, swf vt (build b (true :: p) (fun y => f (merge (leaves a) x y))) /\
         (forall y, models (build b (true :: p) (fun y => f (merge (leaves a) x y))) y = f (merge (leaves a) x y)) /\
         (build b (true :: p) (fun y => f (merge (leaves a) x y)) = XT \/ build b (true :: p) (fun y => f (merge (leaves a) x y)) = XF \/
          below (true :: p) (build b (true :: p) (fun y => f (merge (leaves a) x y))))) as SU.
      { intros x. apply IHb; auto. }
      split; [|split; [|right; right; exists []; auto]].
      * apply swf_dec. split; [eauto|]. split; [|split; [|split]].
        -- apply Forall_forall. intros e He. apply in_map_iff in He as (x & <- & Hx). simpl. destruct (PR x) as (? & _), (SU x) as (? & _). auto.
        -- apply Forall_forall. intros e He. apply in_map_iff in He as (x & <- & Hx). simpl. destruct (PR x) as (_ & _ & ?), (SU x) as (_ & _ & ?). auto.
        -- apply Exists_exists. destruct (existsb (fun x => existsb (fun y => f (merge (leaves a) x y)) Bs) As) eqn:EX.
           ++ apply existsb_exists in EX as (x & Hx & EX). apply existsb_exists in EX as (y & Hy & EX).
              eexists. split; [apply in_map; exact Hx|]. simpl. intros Z. destruct (SU x) as (_ & M & _). rewrite Z in M. specialize (M y). simpl in M. congruence.
           ++ exfalso. assert (forall y, f y = false) as FF.
              { intros y. destruct (EN y) as (xa & yb & A1 & B1 & _ & _ & ->). destruct (f (merge (leaves a) xa yb)) eqn:E; auto.
                rewrite <- EX. symmetry. apply existsb_exists. exists xa. split; auto. apply existsb_exists. eauto. }
              rewrite <- not_true_iff_false in I1. apply I1. apply forallb_forall. intros x Hx. apply forallb_forall. intros y Hy. rewrite !FF. auto.
        -- pose proof (insts_distinct (leaves a) NDa x0) as FD. fold As in FD. clear - FD PR. induction FD as [|x l H F IH]; simpl; constructor; auto.
           apply Forall_forall. intros e He. apply in_map_iff in He as (y & <- & Hy). simpl. intros z.
           destruct (PR x) as (_ & -> & _), (PR y) as (_ & -> & _). rewrite Forall_forall in H. destruct (H y Hy) as (v & Hv & NE).
           destruct (eq_on (leaves a) x z) eqn:E1, (eq_on (leaves a) y z) eqn:E2; auto. rewrite eq_on_iff in E1, E2. exfalso. apply NE. rewrite E1, E2 by auto. auto.
      * intros y. simpl. apply eq_true_iff_eq. rewrite existsb_exists. split.
        -- intros (e & He & M). apply in_map_iff in He as (x & <- & Hx). simpl in M. apply andb_true_iff in M as [M1 M2].
           destruct (PR x) as (_ & E1 & _), (SU x) as (_ & E2 & _). rewrite E1, eq_on_iff in M1. rewrite E2 in M2. rewrite <- M2. apply LF.
           intros v Hv. destruct (in_dec N.eq_dec v (leaves a)) as [Ha|Ha]; [rewrite merge_in by auto; symmetry; auto|rewrite merge_out by auto; auto].
        -- intros Fy. destruct (EN y) as (xa & yb & A1 & B1 & A2 & B2 & E). eexists. split; [apply in_map; exact A1|]. simpl.
           destruct (PR xa) as (_ & -> & _), (SU xa) as (_ & -> & _). apply andb_true_iff. split; [apply eq_on_iff; auto|].
           rewrite <- Fy. apply LF. intros v Hv. destruct (in_dec N.eq_dec v (leaves a)) as [Ha|Ha]; [rewrite merge_in by auto; auto|rewrite merge_out by auto; auto].
Qed.

(** ** The node table *)
Definition sheap := list snode.
Fixpoint put (t : stree) (s : sheap) : nat * sheap :=
  match t with
  | XT => (0%nat, s)
  | XF => (1%nat, s)
  | XL p l => (length s, s ++ [MkS p (SLit l)])
  | XD p es =>
      let '(ids, s1) := fold_left (fun acc e => let '(ids, s) := acc in
        let '(i, s1) := put (fst e) s in let '(j, s2) := put (snd e) s1 in (ids ++ [(i, j)], s2)) es ([], s) in
      (length s1, s1 ++ [MkS p (SDec ids)])
  end.
Definition nodes_of (s : sheap) : sdd := fun n => nth_error s n.
Definition s_new : sheap := [MkS [] STrue; MkS [] SFalse].
Fixpoint tree_of (fuel : nat) (s : sheap) (n : nat) : stree :=
  match fuel with
  | O => XF
  | S f =>
      match nth_error s n with
      | Some (MkS p (SLit l)) => XL p l
      | Some (MkS p (SDec es)) => XD p (map (fun e => (tree_of f s (fst e), tree_of f s (snd e))) es)
      | Some (MkS _ STrue) => XT
      | _ => XF
      end
  end.
Fixpoint post (fuel : nat) (s : sheap) (n : nat) : list nat :=
  match fuel with
  | O => [n]
  | S f =>
      match nth_error s n with
      | Some (MkS p (SDec es)) => flat_map (fun e => post f s (fst e) ++ post f s (snd e)) es ++ [n]
      | _ => [n]
      end
  end.
(** children before parents, the constants first *)
Definition ordered (s : sheap) : Prop :=
  nth_error s 0 = Some (MkS [] STrue) /\ nth_error s 1 = Some (MkS [] SFalse) /\
  forall n p es e, nth_error s n = Some (MkS p (SDec es)) -> In e es -> (fst e < n /\ snd e < n)%nat.
Definition ref_lib (svt : vtree) : sddlib := {|
  L_state := sheap; L_new := s_new; L_true := fun _ => 0%nat; L_false := fun _ => 1%nat;
  L_lit := fun l s => put (build svt [] (lit_sat l)) s;
  L_and := fun a b s => put (build svt [] (fun y => models (tree_of (S a) s a) y && models (tree_of (S b) s b) y)) s;
  L_or := fun a b s => put (build svt [] (fun y => models (tree_of (S a) s a) y || models (tree_of (S b) s b) y)) s;
  L_nodes := nodes_of; L_topo := fun s n => post (S n) s n |}.

Lemma SRep_grow s ext n t : SRep (nodes_of s) n t -> SRep (nodes_of (s ++ ext)) n t.
Proof.
  assert (forall n x, nodes_of s n = Some x -> nodes_of (s ++ ext) n = Some x) as G.
  { intros k x H. unfold nodes_of in *. rewrite nth_error_app1; auto. apply nth_error_Some. congruence. }
  revert n. induction t as [| |p l|p ts IH] using stree_ind2; intros n H; inversion H; subst.
  - eapply SRep_true; eauto.
  - eapply SRep_false; eauto.
  - eapply SRep_lit; eauto.
  - eapply SRep_dec; eauto. match goal with F : Forall2 _ ?es ts |- _ => revert F; generalize es end. clear - IH.
    induction IH as [|t ts [I1 I2] F IHl]; intros es F2; inversion F2 as [|? ? ? ? [A B]]; subst; constructor; auto.
Qed.
Lemma SRep_lt s n t : SRep (nodes_of s) n t -> (n < length s)%nat.
Proof. intros H. apply nth_error_Some. unfold nodes_of in H. inversion H; congruence. Qed.
Lemma ordered_snoc s x : ordered s -> (forall p es e, x = MkS p (SDec es) -> In e es -> (fst e < length s /\ snd e < length s)%nat) -> ordered (s ++ [x]).
Proof.
  intros (A & B & C) H.
  assert (forall n y, nth_error s n = Some y -> nth_error (s ++ [x]) n = Some y) as G.
  { intros n y E. rewrite nth_error_app1; auto. apply nth_error_Some. congruence. }
  split; auto. split; auto. intros n p es e E He. destruct (Nat.lt_ge_cases n (length s)) as [L|L].
  - rewrite nth_error_app1 in E by auto. eauto.
  - rewrite nth_error_app2 in E by auto. destruct (n - length s)%nat as [|k] eqn:K; simpl in E; [|destruct k; discriminate].
    injection E as ->. destruct (H p es e eq_refl He). lia.
Qed.
Lemma put_spec t : forall s, ordered s -> ordered (snd (put t s)) /\ (exists ext, snd (put t s) = s ++ ext) /\ SRep (nodes_of (snd (put t s))) (fst (put t s)) t.
Proof.
  induction t as [| |p l|p ts IH] using stree_ind2; intros s O.
  - simpl. split; auto. split; [exists []; rewrite app_nil_r; auto|]. eapply SRep_true. apply O.
  - simpl. split; auto. split; [exists []; rewrite app_nil_r; auto|]. eapply SRep_false. apply O.
  - simpl. split; [apply ordered_snoc; auto; discriminate|]. split; [eauto|]. apply SRep_lit. unfold nodes_of. rewrite nth_error_app2, Nat.sub_diag by lia. auto.
  - cbn [put]. set (F := fun (acc : list (nat * nat) * sheap) e => let '(ids, s) := acc in
        let '(i, s1) := put (fst e) s in let '(j, s2) := put (snd e) s1 in (ids ++ [(i, j)], s2)).
    assert (forall done ids s, ordered s -> Forall2 (fun e t => SRep (nodes_of s) (fst e) (fst t) /\ SRep (nodes_of s) (snd e) (snd t)) ids done ->
      let r := fold_left F ts (ids, s) in ordered (snd r) /\ (exists ext, snd r = s ++ ext) /\
      Forall2 (fun e t => SRep (nodes_of (snd r)) (fst e) (fst t) /\ SRep (nodes_of (snd r)) (snd e) (snd t)) (fst r) (done ++ ts)) as K.
    { clear s O. induction IH as [|[a b] ts [I1 I2] _ IHl]; intros done ids s O F2; cbn zeta.
      - simpl. split; auto. split; [exists []; rewrite app_nil_r; auto|]. rewrite app_nil_r. auto.
      - cbn [fold_left fst snd] in *. specialize (I1 s O). destruct (put a s) as [i s1] eqn:Ea. cbn [fst snd] in I1. destruct I1 as (O1 & [e1 X1] & R1). subst s1.
        specialize (I2 _ O1). destruct (put b (s ++ e1)) as [j s2] eqn:Eb. cbn [fst snd] in I2. destruct I2 as (O2 & [e2 X2] & R2). subst s2.
        assert (F (ids, s) (a, b) = (ids ++ [(i, j)], (s ++ e1) ++ e2)) as -> by (unfold F; cbn [fst snd]; rewrite Ea, Eb; reflexivity).
        destruct (IHl (done ++ [(a, b)]) (ids ++ [(i, j)]) _ O2) as (O3 & [e3 E3] & R3).
        + apply Forall2_app.
          * clear - F2. induction F2 as [|x y l l' [A B] F2 IHF]; constructor; auto. split; apply SRep_grow, SRep_grow; auto.
          * constructor; auto. cbn [fst snd]. split; auto. apply SRep_grow. auto.
        + cbn zeta in *. split; auto. split; [exists (e1 ++ e2 ++ e3); eapply eq_trans; [exact E3|]; rewrite <- !app_assoc; auto|]. 
          replace (done ++ (a, b) :: ts) with ((done ++ [(a, b)]) ++ ts) by (rewrite <- app_assoc; auto). exact R3. }
    specialize (K [] [] s O (Forall2_nil _)). cbn zeta in K. simpl app in K.
    destruct (fold_left F ts ([], s)) as [ids s1]. cbn [fst snd] in *. destruct K as (O1 & [e1 ->] & F2). split; [|split].
    + apply ordered_snoc; auto. intros q es e X He. injection X as <- <-. destruct (Forall2_in_l _ _ _ _ F2 He) as (t & _ & A & B).
      split; eapply SRep_lt; eauto.
    + rewrite <- app_assoc. eauto.
    + eapply SRep_dec.
      * unfold nodes_of. rewrite nth_error_app2, Nat.sub_diag by lia. reflexivity.
      * generalize [MkS p (SDec ids)]. intros ext. clear - F2. induction F2 as [|x y l l' [A B] F2 IHF]; constructor; auto. split; apply SRep_grow; auto.
Qed.
Lemma tree_of_rep s : ordered s -> forall t n f, SRep (nodes_of s) n t -> (n < f)%nat -> tree_of f s n = t.
Proof.
  intros O t. induction t as [| |p l|p ts IH] using stree_ind2; intros n [|f] H L; try lia; inversion H; subst; cbn [tree_of];
    match goal with E : nodes_of s n = _ |- _ => unfold nodes_of in E; rewrite E end; auto.
  f_equal. destruct O as (_ & _ & O).
  match goal with E : nth_error s n = Some (MkS p (SDec ?es)), F : Forall2 _ ?es ts |- _ =>
    pose proof (fun e => O n p es e E) as O'; revert F O'; generalize es end. clear - IH L.
  induction IH as [|[a b] ts [I1 I2] F IHl]; intros es F2 O'; inversion F2 as [|e ? ? ? [A B]]; subst; auto.
  simpl. destruct (O' e) as [L1 L2]; [left; auto|]. simpl in *. rewrite (I1 _ f A), (I2 _ f B) by lia. f_equal. apply IHl; auto.
Qed.
Lemma swf_local svt t : swf svt t -> local (leaves svt) (models t).
Proof.
  intros W x y H. destruct (spath t) as [p|] eqn:E; [|destruct t; try discriminate; auto].
  assert (exists s', subtree svt p = Some s') as [s' Hs'].
  { destruct t; simpl in E; try discriminate; injection E as ->; [destruct W as [W _]; eauto|]. apply swf_dec in W as ((c & d & Hcd) & _). eauto. }
  eapply models_ext; eauto. intros v Hv. apply H. eapply (nodes_leaves [] svt p s'); eauto. apply nodes_root. auto.
Qed.
(** the post-order *)
Definition closed (s : sheap) (L : list nat) : Prop := forall L1 n L2 p es e, L = L1 ++ n :: L2 -> nodes_of s n = Some (MkS p (SDec es)) -> In e es ->
  In (fst e) L1 /\ In (snd e) L1.
Lemma closed_app s L : forall L', closed s L -> closed s L' -> closed s (L ++ L').
Proof.
  intros L' C C' L1 n L2 p es e E H He.
  destruct (app_eq_app _ _ _ _ E) as (M & [[E1 E2]|[E1 E2]]).
  - destruct M as [|k M]; simpl in E2.
    + rewrite app_nil_r in E1. subst. destruct (C' [] n L2 p es e) as [[] _]; auto.
    + injection E2 as <- E2. apply (C L1 n M p es e); auto.
  - subst. destruct (C' M n L2 p es e) as [A B]; auto. split; apply in_or_app; auto.
Qed.
Lemma closed_snoc s L n : closed s L -> (forall p es e, nodes_of s n = Some (MkS p (SDec es)) -> In e es -> In (fst e) L /\ In (snd e) L) -> closed s (L ++ [n]).
Proof.
  intros C H L1 k L2 p es e E Hk He. destruct L2 as [|x L2] using rev_ind.
  - apply app_inj_tail in E as [<- <-]. eauto.
  - clear IHL2. rewrite app_comm_cons, app_assoc in E. apply app_inj_tail in E as [-> _]. eapply C; eauto.
Qed.
Lemma sreach_app s n k j : sreach (nodes_of s) n k -> sreach (nodes_of s) k j -> sreach (nodes_of s) n j.
Proof. induction 1; intros; auto. eapply sreach_step; eauto. Qed.
Lemma post_spec s : ordered s -> forall f n, (n < f)%nat -> closed s (post f s n) /\ In n (post f s n) /\ (forall k, In k (post f s n) -> sreach (nodes_of s) n k).
Proof.
  intros (_ & _ & O). induction f as [|f IH]; intros n L; [lia|]. cbn [post].
  assert ((forall p es, nodes_of s n <> Some (MkS p (SDec es))) -> closed s [n] /\ In n [n] /\ (forall k, In k [n] -> sreach (nodes_of s) n k)) as T.
  { intros H. split; [|split; [left; auto|intros k [<-|[]]; apply sreach_refl]].
    intros L1 k L2 p es e E Hk He. destruct L1 as [|y L1]; [injection E as <- <-; exfalso; eapply H; eauto|]. destruct L1; discriminate. }
  destruct (nth_error s n) as [[p [| | |es]]|] eqn:E; try (apply T; unfold nodes_of; congruence).
  pose proof (fun e => O n p es e E) as O'. clear T.
  assert (forall es', incl es' es -> closed s (flat_map (fun e => post f s (fst e) ++ post f s (snd e)) es') /\
    (forall e, In e es' -> In (fst e) (flat_map (fun e => post f s (fst e) ++ post f s (snd e)) es') /\ In (snd e) (flat_map (fun e => post f s (fst e) ++ post f s (snd e)) es')) /\
    (forall k, In k (flat_map (fun e => post f s (fst e) ++ post f s (snd e)) es') -> sreach (nodes_of s) n k)) as K.
  { induction es' as [|e es' IHe]; intros HI.
    - split; [intros [|] ? ? ? ? ? Z; discriminate|]. split; intros ? [].
    - destruct (O' e) as [L1 L2]; [apply HI; left; auto|]. destruct (IH (fst e)) as (A1 & A2 & A3); [lia|]. destruct (IH (snd e)) as (B1 & B2 & B3); [lia|].
      destruct IHe as (C1 & C2 & C3); [intros x Hx; apply HI; right; auto|]. simpl. split; [|split].
      + apply closed_app; auto. apply closed_app; auto.
      + intros e' [<-|He']; [split; apply in_or_app; left; apply in_or_app; auto|]. destruct (C2 e' He'). split; apply in_or_app; auto.
      + intros k Hk. apply in_app_or in Hk as [Hk|Hk]; [|auto]. apply in_app_or in Hk as [Hk|Hk].
        * eapply sreach_step; [exact E|apply HI; left; reflexivity|left; reflexivity|auto].
        * eapply sreach_step; [exact E|apply HI; left; reflexivity|right; reflexivity|auto]. }
  destruct (K es (incl_refl _)) as (K1 & K2 & K3). split; [|split].
  - apply closed_snoc; auto. intros p' es' e X He. unfold nodes_of in X. rewrite E in X. injection X as <- <-. auto.
  - apply in_or_app. right. left. auto.
  - intros k Hk. apply in_app_or in Hk as [Hk|[<-|[]]]; auto. apply sreach_refl.
Qed.

Theorem ref_libs_ok : libs_ok ref_lib.
Proof.
  intros svt ND NZ. exists ordered.
  assert (forall s g, ordered s -> local (leaves svt) g ->
    denotes svt (ref_lib svt) ordered (snd (put (build svt [] g) s)) (fst (put (build svt [] g) s)) g /\
    forall n f, denotes svt (ref_lib svt) ordered s n f -> denotes svt (ref_lib svt) ordered (snd (put (build svt [] g) s)) n f) as K.
  { intros s g O LG. destruct (build_spec svt svt [] g eq_refl ND NZ LG) as (W & M & _). destruct (put_spec (build svt [] g) s O) as (O1 & [ext E] & R).
    split.
    - split; auto. exists (build svt [] g). auto.
    - intros n f (_ & st & A & B & C). split; auto. exists st. split; auto. simpl. rewrite E. apply SRep_grow. exact A. }
  constructor.
  - split; auto. split; auto. intros [|[|[|n]]] p es e H; discriminate.
  - intros s O. split; auto. exists XT. split; [eapply SRep_true; apply O|]. split; [exact I|auto].
  - intros s O. split; auto. exists XF. split; [eapply SRep_false; apply O|]. split; [exact I|auto].
  - intros s l O N0 Hl. apply K; auto. intros x y H. unfold lit_sat. rewrite H; auto.
  - intros s a b f g (O & sa & A1 & A2 & A3) (_ & sb & B1 & B2 & B3).
    assert (forall y, models (tree_of (S a) s a) y && models (tree_of (S b) s b) y = f y && g y) as E.
    { intros y. rewrite (tree_of_rep s O sa a (S a)), (tree_of_rep s O sb b (S b)), A3, B3; auto. }
    destruct (K s (fun y => models (tree_of (S a) s a) y && models (tree_of (S b) s b) y)) as [K1 K2]; auto.
    { rewrite (tree_of_rep s O sa a (S a)), (tree_of_rep s O sb b (S b)); auto. intros x y H. rewrite (swf_local svt sa A2 x y H), (swf_local svt sb B2 x y H). auto. }
    split; [eapply denotes_ext; [exact E|exact K1]|exact K2].
  - intros s a b f g (O & sa & A1 & A2 & A3) (_ & sb & B1 & B2 & B3).
    assert (forall y, models (tree_of (S a) s a) y || models (tree_of (S b) s b) y = f y || g y) as E.
    { intros y. rewrite (tree_of_rep s O sa a (S a)), (tree_of_rep s O sb b (S b)), A3, B3; auto. }
    destruct (K s (fun y => models (tree_of (S a) s a) y || models (tree_of (S b) s b) y)) as [K1 K2]; auto.
    { rewrite (tree_of_rep s O sa a (S a)), (tree_of_rep s O sb b (S b)); auto. intros x y H. rewrite (swf_local svt sa A2 x y H), (swf_local svt sb B2 x y H). auto. }
    split; [eapply denotes_ext; [exact E|exact K1]|exact K2].
  - intros s n f (O & st & A & B & C). destruct (post_spec s O (S n) n) as (P1 & P2 & P3); [lia|]. split; auto. split; auto.
    intros L1 k L2 p es e EL H He. destruct (P1 L1 k L2 p es e EL H He). auto.
Qed.
