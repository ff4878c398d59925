(** Products and loads do not depend on the manager: trees of products are determined up to the order of elements. *)
From Coq Require Import Reals Lra Permutation Sorted.
From Verif Require Import Base Param ParamProofs Vtree VtreeProofs Spec SpecProofs TreeProofs Heap Manager HeapProofs SerProofs
  RepProofs OrderProofs CanonProofs LoadProofs MulProofs ReplayProofs Query QueryProofs MpeProofs SampleProofs ProductTrees ProductNodes ProductProofs Text IO IOProofs OneNode.
Local Open Scope R_scope.
Notation esh := (fun e e1 => shuffled (tp e) (tp e1) /\ shuffled (ts e) (ts e1) /\ tw e1 = tw e).

Lemma shuffled_sem t t' : shuffled t t' -> (forall x, weight t' x = weight t x) /\ (forall x, base t' x = base t x).
Proof. intros S. destruct (shuffled_like _ _ S). auto. Qed.

(** ** Matching elements with disjoint satisfiable primes *)
Lemma choose_F2 {A B} (R : A -> B -> Prop) (Q : B -> Prop) l : (forall a, In a l -> exists b, Q b /\ R a b) -> exists l', Forall2 R l l' /\ Forall Q l'.
Proof.
  induction l as [|a l IH]; intros H; [exists []; auto|]. destruct (H a) as (b & Qb & Rb); [left; auto|]. destruct IH as (l' & F & G); [intros; apply H; right; auto|].
  exists (b :: l'). auto.
Qed.
Lemma disj_nodup (l : list (ptree * ptree * R)) : (forall e, In e l -> exists x, base (tp e) x = true) -> ForallOrdPairs disj l -> NoDup l.
Proof.
  intros S F. induction F as [|e l D F IH]; constructor; [|apply IH; intros; apply S; right; auto].
  intros I. rewrite Forall_forall in D. destruct (S e) as [x Hx]; [left; auto|]. specialize (D e I x). rewrite Hx in D. discriminate.
Qed.
Lemma match_perm (R : ptree * ptree * R -> ptree * ptree * R -> Prop) l l' : (forall e e', R e e' -> forall x, base (tp e') x = base (tp e) x) ->
  (forall e, In e l -> exists x, base (tp e) x = true) -> ForallOrdPairs disj l -> ForallOrdPairs disj l' ->
  (forall e, In e l -> exists e', In e' l' /\ R e e') -> (forall e', In e' l' -> exists e, In e l /\ R e e') ->
  exists l1, Forall2 R l l1 /\ Permutation l1 l'.
Proof.
  intros RB S D D' M M'. destruct (choose_F2 R (fun e' => In e' l') l M) as (l1 & F & G). exists l1. split; auto.
  assert (forall e', In e' l' -> exists x, base (tp e') x = true) as S'.
  { intros e' H. destruct (M' e' H) as (e & He & Re). destruct (S e He) as [x Hx]. exists x. rewrite (RB _ _ Re). auto. }
  rewrite Forall_forall in G.
  assert (ForallOrdPairs disj l1) as D1.
  { clear M M' G S S' D'. revert D. induction F as [|e e' l l1 Re F IH]; intros D; constructor; inversion D as [|? ? Da Db]; subst; auto.
    rewrite Forall_forall in *. intros f Hf x. destruct (Forall2_in_r _ _ _ _ F Hf) as (f0 & Hf0 & Rf). rewrite (RB _ _ Re), (RB _ _ Rf). apply (Da f0 Hf0). }
  apply NoDup_Permutation; [apply disj_nodup; auto; intros; apply S'; auto|apply disj_nodup; auto|].
  intros e'. split; [apply G|]. intros H. destruct (M' e' H) as (e & He & Re). destruct (Forall2_in_l _ _ _ _ F He) as (e1 & H1 & R1).
  destruct (FOP_in _ _ _ _ D' (G e1 H1) H) as [->|DD]; auto. exfalso. destruct (S e He) as [x Hx].
  assert (base (tp e1) x = true /\ base (tp e') x = true) as [B1 B2] by (rewrite (RB _ _ R1), (RB _ _ Re); auto).
  destruct DD as [DD|DD]; specialize (DD x); rewrite B1, B2 in DD; discriminate.
Qed.

(** ** Trees of products of the same factors *)
Lemma same_tree s : NoDup (leaves s) -> forall t t' l, conforms s t -> conforms s t' -> positive t -> positive t' -> normalized t -> normalized t' ->
  deterministic t -> deterministic t' -> nsem l t -> nsem l t' -> nstr l t -> nstr l t' -> shuffled t t'.
Proof.
  induction s as [v|a IHa b IHb]; intros ND t t' l C C' Pt Pt' Nt Nt' Dt Dt' M M' T T'.
  all: pose proof (nsem_fun _ l t t' ND C C' Nt Nt' M M') as EW.
  - destruct t as [z|w ta tb|es]; destruct t' as [z'|w' ta' tb'|es']; simpl in C, C'; try contradiction.
    + assert (z = z') as <-; [|constructor]. apply nstr_lit_inv in T as [_ T], T' as [T' _]. destruct (T _ T') as [Q|(? & ? & ? & Q)]; congruence.
    + exfalso. apply nstr_lit_inv in T as [T _]. destruct (nstr_top_inv _ _ _ _ T' _ T) as (? & ? & ?). discriminate.
    + exfalso. apply nstr_lit_inv in T' as [T' _]. destruct (nstr_top_inv _ _ _ _ T _ T') as (? & ? & ?). discriminate.
    + subst w w'. pose proof (EW (fun _ => true)) as E1. pose proof (EW (fun _ => false)) as E0. simpl in E1, E0. subst. constructor.
  - destruct t as [z|w ta tb|tes]; simpl in C; try contradiction. destruct t' as [z|w ta tb|tes']; simpl in C'; try contradiction.
    apply all_nodes_dec in Dt as [Dt Dts], Dt' as [Dt' Dts']. apply all_nodes_dec in Pt as [Pt Pts], Pt' as [Pt' Pts'].
    apply all_nodes_dec in Nt as [_ Nts], Nt' as [_ Nts']. rewrite Forall_forall in Dts, Dts', Pts, Pts', Nts, Nts'.
    destruct C as [_ C], C' as [_ C']. rewrite Forall_forall in C, C'.
    simpl in ND. destruct (NoDup_app_inv _ _ ND) as (NDa & NDb & _).
    assert (forall te te' c, In te tes -> In te' tes' ->
      nsem (map tp c) (tp te) /\ nsem (map ts c) (ts te) /\ nstr (map tp c) (tp te) /\ nstr (map ts c) (ts te) ->
      nsem (map tp c) (tp te') /\ nsem (map ts c) (ts te') /\ nstr (map tp c) (tp te') /\ nstr (map ts c) (ts te') -> esh te te') as K.
    { intros te te' c Hte Hte' (X1 & X2 & X3 & X4) (Y1 & Y2 & Y3 & Y4).
      destruct (C te Hte) as [Ca Cb], (C' te' Hte') as [Ca' Cb'], (Dts te Hte), (Dts' te' Hte'), (Pts te Hte), (Pts' te' Hte'), (Nts te Hte), (Nts' te' Hte').
      split; [eapply IHa; eauto|]. split; [eapply IHb; eauto|].
      pose proof (nsem_fun a _ (tp te) (tp te') NDa Ca Ca' ltac:(assumption) ltac:(assumption) X1 Y1) as W1.
      pose proof (nsem_fun b _ (ts te) (ts te') NDb Cb Cb' ltac:(assumption) ltac:(assumption) X2 Y2) as W2.
      destruct (base_sat (VNode a b)) with (t := TDec [te]) as [x Hx].
      { simpl. auto. } { simpl. split; [discriminate|]. constructor; auto. }
      simpl in Hx. rewrite orb_false_r in Hx. apply andb_true_iff in Hx as [Hx1 Hx2]. fold (tp te) in Hx1. fold (ts te) in Hx2.
      pose proof (weight_elem x tes te Dt Hte Hx1) as Q1.
      assert (base (tp te') x = true) as Hx1' by (rewrite (proj2 Y1), <- (proj2 X1); auto).
      pose proof (weight_elem x tes' te' Dt' Hte' Hx1') as Q2. rewrite <- EW, Q1, <- W1, <- W2 in Q2.
      assert (0 < weight (tp te) x) by (apply weight_pos_base; auto). assert (0 < weight (ts te) x) by (apply weight_pos_base; auto).
      assert (0 < weight (tp te) x * weight (ts te) x) by (apply Rmult_lt_0_compat; auto).
      apply (Rmult_eq_reg_l (weight (tp te) x * weight (ts te) x)); lra. }
    inversion T as [| |fs gs T1 T2 E3 E4]; subst gs. inversion T' as [| |fs' gs' T1' T2' E3' E4']; subst gs'. rewrite <- E3 in E3'.
    assert (fs' = fs) as -> by (revert E3'; clear; revert fs'; induction fs as [|f fs IH]; intros [|f' fs'] E; try discriminate; auto; simpl in E; injection E as -> E; f_equal; auto).
    assert (forall g (c : list (ptree * ptree * R)), conforms a (tp g) -> conforms b (ts g) -> nsem (map tp c) (tp g) -> nsem (map ts c) (ts g) ->
      (exists x, bprod (map tp c) x = true) /\ (exists x, bprod (map ts c) x = true)) as ST.
    { intros g c Ca Cb X1 X2. destruct (base_sat a NDa _ Ca) as [x Hx], (base_sat b NDb _ Cb) as [y Hy].
      split; [exists x; rewrite <- (proj2 X1)|exists y; rewrite <- (proj2 X2)]; auto. }
    destruct (match_perm (fun e e1 => esh e e1) tes tes') as (es1 & F & PM); auto.
    + intros e e' (S & _). apply (shuffled_sem _ _ S).
    + intros e He. destruct (C e He). apply (base_sat a); auto.
    + intros te Hte. destruct (T1 te Hte) as (c & Fc & X). destruct (C te Hte). destruct (ST te c) as [Z1 Z2]; auto; try apply X.
      destruct (T2' c Fc Z1 Z2) as (te' & Hte' & Y). exists te'. split; auto. eapply K; eauto.
    + intros te' Hte'. destruct (T1' te' Hte') as (c & Fc & Y). destruct (C' te' Hte'). destruct (ST te' c) as [Z1 Z2]; auto; try apply Y.
      destruct (T2 c Fc Z1 Z2) as (te & Hte & X). exists te. split; auto. eapply K; eauto.
    + eapply sh_dec; eauto.
Qed.

(** ** Shuffled factors *)
Lemma wprod_shuffled l l' x : Forall2 shuffled l l' -> wprod l' x = wprod l x.
Proof. induction 1 as [|t t' l l' S F IH]; simpl; auto. rewrite IH, (proj1 (shuffled_sem _ _ S)). auto. Qed.
Lemma bprod_shuffled l l' x : Forall2 shuffled l l' -> bprod l' x = bprod l x.
Proof. unfold bprod. induction 1 as [|t t' l l' S F IH]; simpl; auto. rewrite IH, (proj2 (shuffled_sem _ _ S)). auto. Qed.
Lemma nsem_shuffled l l' t : Forall2 shuffled l l' -> nsem l t -> nsem l' t.
Proof.
  intros F [(z & Z & W) B]. split; [exists z; split; auto; intros x|intros x]; [rewrite (wprod_shuffled _ _ _ F)|rewrite (bprod_shuffled _ _ _ F)]; auto.
Qed.
Lemma F2_map {A B} (f : A -> B) (R : B -> B -> Prop) (Q : A -> A -> Prop) c c' : (forall a a', Q a a' -> R (f a) (f a')) -> Forall2 Q c c' -> Forall2 R (map f c) (map f c').
Proof. intros H. induction 1; simpl; auto. Qed.
Lemma nstr_shuffled t : forall l l', Forall2 shuffled l l' -> nstr l t -> nstr l' t.
Proof.
  induction t as [z|v a b|gs IH] using ptree_ind2; intros l l' F N.
  - inversion N as [? ? I A| |]; subst. constructor.
    + destruct (Forall2_in_l _ _ _ _ F I) as (u & Hu & S). inversion S; subst. auto.
    + rewrite Forall_forall in *. intros u Hu. destruct (Forall2_in_r _ _ _ _ F Hu) as (u0 & H0 & S). destruct (A u0 H0) as [->|(v & a & b & ->)]; inversion S; subst; eauto.
  - inversion N as [|? ? ? ? NE A|]; subst. constructor.
    + intros ->. inversion F; subst. auto.
    + rewrite Forall_forall in *. intros u Hu. destruct (Forall2_in_r _ _ _ _ F Hu) as (u0 & H0 & S). destruct (A u0 H0) as (a0 & b0 & ->); inversion S; subst; eauto.
  - inversion N as [| |fs gs' N1 N2]; subst. rewrite Forall_forall in IH.
    assert (exists fs', l' = map TDec fs' /\ Forall2 (fun f f' => (forall e, In e f -> exists e', In e' f' /\ esh e e') /\ (forall e', In e' f' -> exists e, In e f /\ esh e e')) fs fs') as (fs' & -> & FF).
    { clear N N1 N2 IH. revert l' F. induction fs as [|f fs IHf]; intros l' F; inversion F as [|? u ? l0 S F0]; subst; [exists []; auto|].
      destruct (IHf _ F0) as (fs' & -> & FF). apply shuffled_dec_inv in S as (es1 & es' & -> & FE & PM). exists (es' :: fs'). split; auto. constructor; auto. split.
      - intros e He. destruct (Forall2_in_l _ _ _ _ FE He) as (e1 & H1 & Q). exists e1. split; auto. eapply Permutation_in; eauto.
      - intros e' He'. apply (Permutation_in _ (Permutation_sym PM)) in He'. apply (Forall2_in_r _ _ _ _ FE He'). }
    assert (forall c c' g, In g gs -> Forall2 (fun e e1 => esh e e1) c c' -> nsem (map tp c) (tp g) /\ nsem (map ts c) (ts g) /\ nstr (map tp c) (tp g) /\ nstr (map ts c) (ts g) ->
      nsem (map tp c') (tp g) /\ nsem (map ts c') (ts g) /\ nstr (map tp c') (tp g) /\ nstr (map ts c') (ts g)) as K.
    { intros c c' g Hg FC (S1 & S2 & S3 & S4). destruct (IH g Hg) as [I1 I2].
      assert (Forall2 shuffled (map tp c) (map tp c')) as Q1 by (eapply F2_map; [|exact FC]; intros ? ? (Q & _); auto).
      assert (Forall2 shuffled (map ts c) (map ts c')) as Q2 by (eapply F2_map; [|exact FC]; intros ? ? (_ & Q & _); auto).
      split; [eapply nsem_shuffled; eauto|]. split; [eapply nsem_shuffled; eauto|]. split; eauto. }
    constructor.
    + intros g Hg. destruct (N1 g Hg) as (c & Fc & S).
      assert (exists c', Forall2 (@In _) c' fs' /\ Forall2 (fun e e1 => esh e e1) c c') as (c' & Fc' & FC).
      { clear -Fc FF. revert fs' FF. induction Fc as [|e f c fs He Fc IHc]; intros fs' FF; inversion FF as [|? f' ? fs0 (Q & _) FF0]; subst; [exists []; auto|].
        destruct (Q e He) as (e' & He' & X). destruct (IHc _ FF0) as (c' & A & B). exists (e' :: c'). auto. }
      exists c'. split; auto. eapply K; eauto.
    + intros c' Fc' [x Bx] [y By].
      assert (exists c, Forall2 (@In _) c fs /\ Forall2 (fun e e1 => esh e e1) c c') as (c & Fc & FC).
      { clear -Fc' FF. revert fs FF. induction Fc' as [|e f c fs He Fc IHc]; intros fs' FF; inversion FF as [|f' ? fs0 ? (_ & Q) FF0]; subst; [exists []; auto|].
        destruct (Q e He) as (e' & He' & X). destruct (IHc _ FF0) as (c' & A & B). exists (e' :: c'). auto. }
      assert (Forall2 shuffled (map tp c) (map tp c')) as Q1 by (eapply F2_map; [|exact FC]; intros ? ? (Q & _); auto).
      assert (Forall2 shuffled (map ts c) (map ts c')) as Q2 by (eapply F2_map; [|exact FC]; intros ? ? (_ & Q & _); auto).
      destruct (N2 c Fc) as (g & Hg & S).
      { exists x. rewrite <- (bprod_shuffled _ _ _ Q1). auto. }
      { exists y. rewrite <- (bprod_shuffled _ _ _ Q2). auto. }
      exists g. split; auto. eapply K; eauto.
Qed.
(** ** Loading without lifting only reorders elements *)
Lemma loaded_shuffled d : NoDup (leaves d) -> forall t s p t', subtree d p = Some s -> loaded d s p t t' -> shuffled t t'.
Proof.
  intros ND t. induction t as [z|v a b|es IH] using ptree_ind2; intros s p t' Hs H.
  - inversion H; subst. constructor.
  - inversion H; subst. constructor.
  - apply loaded_dec_inv in H as (l & r & u & w & tes1 & tes' & -> & -> & El & Er & F & PM).
    assert (subtree d (false :: p) = Some l) as Sl by (simpl; rewrite Hs; reflexivity).
    assert (subtree d (true :: p) = Some r) as Sr by (simpl; rewrite Hs; reflexivity).
    assert (u = []) as -> by (eapply app_cons_nil, (emb_fun d l ND); [exact El|apply emb_self; auto]).
    assert (w = []) as -> by (eapply app_cons_nil, (emb_fun d r ND); [exact Er|apply emb_self; auto]).
    eapply sh_dec; [|exact PM]. clear PM. induction F as [|te te1 es tes1 (A & B & C) F IHF]; [constructor|].
    inversion IH as [|? ? [I1 I2] I3]; subst. simpl. constructor; auto. split; [exact (I1 l (false :: p) _ Sl A)|]. split; [exact (I2 r (true :: p) _ Sr B)|exact C].
Qed.
Lemma shuffled_sym t : forall t', shuffled t t' -> shuffled t' t.
Proof.
  induction t as [z|v a b|es IH] using ptree_ind2; intros t' H; try (inversion H; subst; constructor; fail).
  apply shuffled_dec_inv in H as (es1 & es' & -> & F & PM).
  assert (Forall2 (fun e e1 => esh e e1) es1 es) as F'.
  { clear PM. induction F as [|e e1 es es1 (A & B & C) F IHF]; [constructor|]. inversion IH as [|? ? [I1 I2] I3]; subst. constructor; auto. }
  destruct (Forall2_perm _ _ _ PM _ F') as (m2 & PM2 & F2). eapply sh_dec; [exact F2|]. apply Permutation_sym. auto.
Qed.
Lemma shuffled_trans t : forall t' t'', shuffled t t' -> shuffled t' t'' -> shuffled t t''.
Proof.
  induction t as [z|v a b|es IH] using ptree_ind2; intros t' t'' H H'; try (inversion H; subst; inversion H'; subst; constructor; fail).
  apply shuffled_dec_inv in H as (es1 & es' & -> & F & PM). apply shuffled_dec_inv in H' as (es2 & es'' & -> & F' & PM').
  destruct (Forall2_perm _ _ _ (Permutation_sym PM) _ F') as (m2 & PM2 & F2).
  eapply (sh_dec es m2); [|eapply perm_trans; [apply Permutation_sym; exact PM2|exact PM']].
  clear PM PM' PM2 F' es' es'' es2. revert m2 F2. induction F as [|e e1 es es1 (A & B & C) F IHF]; intros m2 F2; inversion F2 as [|? e2 ? m3 (A' & B' & C') F3]; subst; constructor;
    inversion IH as [|? ? [I1 I2] I3]; subst; auto.
  split; [eapply I1; eauto|]. split; [eapply I2; eauto|congruence].
Qed.
Lemma wprod_two a b x : wprod [a; b] x = weight a x * weight b x.
Proof. simpl. ring. Qed.
Lemma factors_len e : (1 <= length (factors e))%nat.
Proof. induction e; simpl; auto. rewrite app_length. lia. Qed.
Lemma factors_one e : length (factors e) = 1%nat -> exists i, e = MNode i.
Proof. destruct e as [i|a b]; [eauto|]. simpl. rewrite app_length. pose proof (factors_len a). pose proof (factors_len b). lia. Qed.

Section Elsewhere.
Context {P : pops} (val : P -> R) (HP : pexact P val).
Notation mgr := (mgr P). Notation node_at := (node_at val). Notation operand := (operand val). Notation tidy := (tidy val).

Theorem products_elsewhere fl1 fl2 (m1 m2 : mgr) p1 p2 s e1 e2 l1 l2 l : Inv val fl1 m1 -> Inv val fl2 m2 -> subtree (m_vt m1) p1 = Some s -> subtree (m_vt m2) p2 = Some s ->
  Forall2 (operand m1 p1) (factors e1) l1 -> Forall2 (operand m2 p2) (factors e2) l2 -> Permutation l1 l -> Forall2 shuffled l l2 ->
  exists r1 z1 n1 r2 z2 n2, mrun fl1 e1 m1 = Ok ((r1, z1), n1) /\ mrun fl2 e2 m2 = Ok ((r2, z2), n2) /\ mext fl1 m1 n1 /\ mext fl2 m2 n2 /\ Inv val fl2 n2 /\ val z1 = val z2 /\
    match r1, r2 with
    | Some i, Some j => exists t t', node_at n1 i p1 t /\ node_at n2 j p2 t' /\ positive t /\ deterministic t /\ shuffled t t' /\ match e2 with MNode _ => True | MMul _ _ => normalized t /\ kept fl2 n2 j end
    | None, None => True
    | _, _ => False
    end.
Proof.
  intros I1 I2 S1 S2 F1 F2 PM SH.
  destruct (mrun_spec val HP fl1 p1 e1 m1 l1 I1 F1) as (r1 & z1 & n1 & E1 & J1 & X1 & M1). destruct (mrun_spec val HP fl2 p2 e2 m2 l2 I2 F2) as (r2 & z2 & n2 & E2 & J2 & X2 & M2).
  exists r1, z1, n1, r2, z2, n2. do 5 (split; auto).
  assert (length (factors e1) = length (factors e2)) as EL.
  { rewrite (F2_length _ _ _ F1), (F2_length _ _ _ F2), (Permutation_length PM), (F2_length _ _ _ SH). auto. }
  assert (forall x, wprod l2 x = wprod l1 x) as EW by (intros x; rewrite (wprod_shuffled _ _ _ SH); symmetry; apply wprod_perm; auto).
  assert (forall x, bprod l2 x = bprod l1 x) as EB by (intros x; rewrite (bprod_shuffled _ _ _ SH); symmetry; apply bprod_perm; auto).
  pose proof (subtree_nodup _ (wf_leaves _ (proj1 I1)) _ _ S1) as ND.
  assert (forall (mm nn : mgr) f q k t, Inv val f nn -> mext f mm nn -> subtree (m_vt mm) q = Some s -> node_at nn k q t -> conforms s t) as CF.
  { intros mm nn f q k t J X S A. destruct (node_at_conforms val nn k q t (proj1 J) A) as (s' & Ss & C). rewrite (me_vt _ _ _ X), S in Ss. injection Ss as <-. auto. }
  assert (forall t c, conforms s t -> positive t -> 0 < c -> (forall x, weight t x * c = 0) -> False) as NZ.
  { intros t c C Pt Hc H. destruct (base_sat s ND t C) as [x Hx]. apply (weight_pos_base t x Pt) in Hx. specialize (H x). apply Rmult_integral in H. lra. }
  destruct r1 as [i|], r2 as [j|].
  - destruct M1 as (Z1 & t1 & (N1 & P1 & D1) & W1 & B1 & T1 & R1), M2 as (Z2 & t2 & (N2 & P2 & D2) & W2 & B2 & T2 & R2).
    pose proof (CF _ _ _ _ _ _ J1 X1 S1 N1) as C1. pose proof (CF _ _ _ _ _ _ J2 X2 S2 N2) as C2.
    destruct (Nat.eq_dec (length (factors e1)) 1) as [L1|L1].
    + destruct (factors_one e1 L1) as [i0 ->]. destruct (factors_one e2 ltac:(congruence)) as [j0 ->]. simpl in E1, E2, F1, F2. injection E1 as <- <- <-. injection E2 as <- <- <-.
      split; auto. inversion F1 as [|? u1 ? ? (A1 & _) F1']; subst. inversion F1'; subst. inversion F2 as [|? u2 ? ? (A2 & _) F2']; subst. inversion F2'; subst.
      apply Permutation_length_1_inv in PM as ->. inversion SH as [|? ? ? ? SS _]; subst. exists t1, t2. do 4 (split; auto). split; auto.
      rewrite (Rep_fun _ _ _ _ _ (proj2 N1) (proj2 A1)), (Rep_fun _ _ _ _ _ (proj2 N2) (proj2 A2)). auto.
    + destruct e1 as [i0|a1 b1]; [exfalso; apply L1; auto|]. destruct e2 as [j0|a2 b2]; [exfalso; apply L1; rewrite EL; auto|].
      destruct R1 as [O1 K1], R2 as [O2 K2].
      assert (nsem l2 t1 /\ nsem l2 t2) as [Q1' Q2'].
      { split; split; [exists (val z1); split; auto; intros x; rewrite EW; auto| |exists (val z2); split; auto|auto]. intros x. rewrite EB. auto. }
      assert (nstr l2 t1) as T1'. { eapply nstr_shuffled; [exact SH|]. eapply (nstr_perm s); eauto. }
      split.
      * rewrite (const_sum s t1 (val z1) l1 ND C1 O1 W1 (fun _ => true)), (const_sum s t2 (val z2) l2 ND C2 O2 W2 (fun _ => true)). apply sum_over_ext'. auto.
      * exists t1, t2. do 4 (split; auto). split; auto. eapply same_tree; eauto.
  - exfalso. destruct M1 as (Z & t & (Nt & Pt & _) & W & _). apply (NZ t (val z1)); auto. { exact (CF _ _ _ _ _ _ J1 X1 S1 Nt). } intros x. rewrite W, <- EW. apply M2.
  - exfalso. destruct M2 as (Z & t & (Nt & Pt & _) & W & _). apply (NZ t (val z2)); auto. { exact (CF _ _ _ _ _ _ J2 X2 S2 Nt). } intros x. rewrite W, EW. apply M1.
  - split; auto. destruct M1 as [-> _], M2 as [-> _]. auto.
Qed.

(** Loading: the tree of the result *)
Lemma load_tree fl (m : mgr) sroot (hs : heap P) root q s p ud t : heap_ok sroot hs -> vt_of hs root = Some q -> subtree sroot q = Some s -> subtree (m_vt m) p = Some s ->
  Rep val hs root t -> tops_fine t -> Inv val fl m ->
  exists j ud' m' t', LoadPsddNode hs ud (Some p) root fl m = Ok (j, ud', m') /\ Inv val fl m' /\ mext fl m m' /\ node_at m' j p t' /\ shuffled t t'.
Proof.
  intros HO Hq Hs Sp HR TF I. destruct (load_spec val HP sroot hs root fl m ud q s p [] t HO Hq Hs (emb_self _ _ _ Sp) HR TF I) as (j & ud' & m' & t1 & E & I' & X & L & A & _).
  exists j, ud', m', t1. do 4 (split; auto). eapply loaded_shuffled; eauto. apply I.
Qed.
(** There and back again *)
Theorem load_back fl fl2 (m m2 : mgr) i p p2 s t ud ud2 : Inv val fl m -> Inv val fl2 m2 -> subtree (m_vt m) p = Some s -> subtree (m_vt m2) p2 = Some s ->
  node_at m i p t -> kept fl m i -> tops_fine t -> deterministic t ->
  exists j ud' m2' ud2', LoadPsddNode (m_heap m) ud (Some p2) i fl2 m2 = Ok (j, ud', m2') /\ LoadPsddNode (m_heap m2') ud2 (Some p) j fl m = Ok (i, ud2', m).
Proof.
  intros I I2 S S2 [V R] K TF D.
  destruct (load_tree fl2 m2 (m_vt m) (m_heap m) i p s p2 ud t (wf_heap _ (proj1 I)) V S S2 R TF I2) as (j & ud' & m2' & t' & E & I2' & X & [V' R'] & SH).
  destruct (load_held val HP (m_vt m2') (m_heap m2') j p2 fl m ud2 i p t' t (wf_heap _ (proj1 I2')) (proj1 I) R' V') as (ud2' & E2); auto.
  { apply (lk_det _ _ (shuffled_like _ _ SH)). auto. } { split; auto. } { apply shuffled_sym; auto. }
  eauto 8.
Qed.
(** Loading the factors and multiplying there, or multiplying here and loading the product: the same node *)
Theorem load_multiply fl fl2 (m m2 : mgr) a b p p2 s ta tb uda udb udk : Inv val fl m -> Inv val fl2 m2 -> subtree (m_vt m) p = Some s -> subtree (m_vt m2) p2 = Some s ->
  operand m p a ta -> operand m p b tb -> tops_fine ta -> tops_fine tb ->
  exists a' b' uda' udb' m3 m4 r z m' r' z' m5,
    LoadPsddNode (m_heap m) uda (Some p2) a fl2 m2 = Ok (a', uda', m3) /\ LoadPsddNode (m_heap m) udb (Some p2) b fl2 m3 = Ok (b', udb', m4) /\
    Multiply m a b fl = Ok ((r, z), m') /\ Multiply m4 a' b' fl2 = Ok ((r', z'), m5) /\ val z = val z' /\
    match r, r' with
    | Some k, Some k' => exists udk', LoadPsddNode (m_heap m') udk (Some p2) k fl2 m5 = Ok (k', udk', m5)
    | None, None => True
    | _, _ => False
    end.
Proof.
  intros I I2 S S2 ([Va Ra] & Pa & Da) ([Vb Rb] & Pb & Db) Ta Tb.
  destruct (load_tree fl2 m2 (m_vt m) (m_heap m) a p s p2 uda ta (wf_heap _ (proj1 I)) Va S S2 Ra Ta I2) as (a' & uda' & m3 & ta' & E3 & I3 & X3 & A3 & SHa).
  assert (subtree (m_vt m3) p2 = Some s) as S3 by (rewrite (me_vt _ _ _ X3); auto).
  destruct (load_tree fl2 m3 (m_vt m) (m_heap m) b p s p2 udb tb (wf_heap _ (proj1 I)) Vb S S3 Rb Tb I3) as (b' & udb' & m4 & tb' & E4 & I4 & X4 & A4 & SHb).
  assert (subtree (m_vt m4) p2 = Some s) as S4 by (rewrite (me_vt _ _ _ X4); auto).
  assert (operand m4 p2 a' ta') as Oa. { split; [eapply node_at_ext; eauto|]. split; [apply (lk_pos _ _ (shuffled_like _ _ SHa)); auto|apply (lk_det _ _ (shuffled_like _ _ SHa)); auto]. }
  assert (operand m4 p2 b' tb') as Ob. { split; auto. split; [apply (lk_pos _ _ (shuffled_like _ _ SHb)); auto|apply (lk_det _ _ (shuffled_like _ _ SHb)); auto]. }
  assert (operand m p a ta /\ operand m p b tb) as [Oa0 Ob0] by (split; (split; [split; auto|auto])).
  destruct (products_elsewhere fl fl2 m m4 p p2 s (MMul (MNode a) (MNode b)) (MMul (MNode a') (MNode b')) [ta; tb] [ta'; tb'] [ta; tb]) as (r & z & n1 & r' & z' & n2 & E1 & E2 & X1 & X2 & J2 & EZ & M); auto.
  { simpl. auto. } { simpl. auto. }
  simpl in E1, E2. unfold mres in *.
  destruct (Multiply m a b fl) as [[[r0 z0] m']| | |] eqn:EM; cbn [bind fst snd] in E1; try discriminate. injection E1 as <- <- <-.
  destruct (Multiply m4 a' b' fl2) as [[[r0' z0'] m5]| | |] eqn:EM'; cbn [bind fst snd] in E2; try discriminate. injection E2 as <- <- <-.
  exists a', b', uda', udb', m3, m4, r0, z0, m', r0', z0', m5. do 4 (split; auto). split.
  - rewrite !(val_mul HP), !(val_one HP) in EZ. lra.
  - destruct r0 as [k|], r0' as [k'|]; auto. destruct M as (t & t' & [Vt Rt] & At & Pt & Dt & SH & NO & K).
    assert (exists sr, heap_ok sr (m_heap m')) as [sr HO].
    { destruct (multiply_spec val HP fl m a b p ta tb I (proj1 Oa0) (proj1 Ob0) Pa Pb) as ([r1 z1] & m1 & E' & I' & _). unfold mres in *. rewrite EM in E'. injection E' as _ _ <-. exists (m_vt m'). apply I'. }
    eapply (load_held val HP sr); eauto. apply J2.
Qed.
End Elsewhere.

Section Queries.
Context {P : pops} (val : P -> R).
Lemma shuffled_tops_one t t' : shuffled t t' -> tops_one t -> tops_one t'.
Proof. apply shuffled_all. auto. Qed.
Lemma tidy_sorted fl (m : mgr P) : tidy val fl m -> sortedH m.
Proof. induction 1 as [t ND|m o m' T IH F E]; [apply sort_new|eapply sort_step; eauto]. Qed.
Theorem evaluate_elsewhere (HP : parith P val) (m m' : mgr P) i j s t t' mask x : psdd_at val m i s t -> psdd_at val m' j s t' -> shuffled t t' -> tops_one t ->
  exists e e', Evaluate (m_heap m) mask x i = Ok e /\ Evaluate (m_heap m') mask x j = Ok e' /\ val e = val e'.
Proof.
  intros A A' S T. destruct (evaluate_full val HP m i s t mask x A) as (e & E & _ & V & _). destruct (evaluate_full val HP m' j s t' mask x A') as (e' & E' & _ & V' & _).
  exists e, e'. do 2 (split; auto). rewrite (V T (fun _ => true)), (V' (shuffled_tops_one _ _ S T) (fun _ => true)). apply sum_over_ext'. intros y. rewrite (proj1 (shuffled_sem _ _ S)). auto.
Qed.
Theorem consistent_elsewhere (m m' : mgr P) i j s t t' mask x f f' : psdd_at val m i s t -> psdd_at val m' j s t' -> shuffled t t' ->
  (forall k, reach (m_heap m) i k -> f k = false) -> (forall k, reach (m_heap m') j k -> f' k = false) ->
  exists b g g', IsConsistent (m_heap m) mask x i f = Ok (b, g) /\ IsConsistent (m_heap m') mask x j f' = Ok (b, g').
Proof.
  intros A A' S Hf Hf'. destruct (consistent_full val m i s t mask x f A Hf) as (b & g & E & _ & B). destruct (consistent_full val m' j s t' mask x f' A' Hf') as (b' & g' & E' & _ & B').
  exists b, g, g'. split; auto. rewrite E'. repeat f_equal. apply eq_true_iff_eq. rewrite B, B'. split; intros (y & Y1 & Y2); exists y; split; auto; [rewrite <- (proj2 (shuffled_sem _ _ S))|rewrite (proj2 (shuffled_sem _ _ S))]; auto.
Qed.
Theorem count_elsewhere (m m' : mgr P) i j s t t' L L' : psdd_at val m i s t -> psdd_at val m' j s t' -> shuffled t t' -> deterministic t ->
  SerializePsddNodes (m_heap m) [i] = Ok L -> SerializePsddNodes (m_heap m') [j] = Ok L' -> ModelCount (m_heap m) L = ModelCount (m_heap m') L'.
Proof.
  intros A A' S D E E'. rewrite (count_full val m i s t L (fun _ => true) A D E), (count_full val m' j s t' L' (fun _ => true) A' (lk_det _ _ (shuffled_like _ _ S) D) E').
  f_equal. apply count_over_ext. intros y. symmetry. apply (shuffled_sem _ _ S).
Qed.
Theorem mpe_elsewhere (HP : pexact P val) (m m' : mgr P) i j s t t' L L' ud ud' fuel : psdd_at val m i s t -> psdd_at val m' j s t' -> shuffled t t' -> nonneg t -> deterministic t ->
  SerializePsddNodes (m_heap m) [i] = Ok L -> SerializePsddNodes (m_heap m') [j] = Ok L' -> (vsize s <= fuel)%nat ->
  exists x v u x' v' u', GetMPESolution fuel (m_heap m) L ud = Ok (x, v, u) /\ GetMPESolution fuel (m_heap m') L' ud' = Ok (x', v', u') /\ val v = val v'.
Proof.
  intros A A' S N D E E' F. destruct (mpe_full val HP m i s t L ud fuel A N D E F) as (x & v & u & G & W & _ & O & _).
  destruct (mpe_full val HP m' j s t' L' ud' fuel A' (lk_nonneg _ _ (shuffled_like _ _ S) N) (lk_det _ _ (shuffled_like _ _ S) D) E' F) as (x' & v' & u' & G' & W' & _ & O' & _).
  exists x, v, u, x', v', u'. do 2 (split; auto). apply Rle_antisym; [rewrite <- W, <- (proj1 (shuffled_sem _ _ S)); auto|rewrite <- W', (proj1 (shuffled_sem _ _ S)); auto].
Qed.
Theorem marginals_elsewhere (HP : parith P val) (m m' : mgr P) i j s t t' L L' v : psdd_at val m i s t -> psdd_at val m' j s t' -> shuffled t t' -> normalized t ->
  SerializePsddNodes (m_heap m) [i] = Ok L -> SerializePsddNodes (m_heap m') [j] = Ok L' -> In v (leaves s) ->
  exists mg mg' pf pt pf' pt', GetMarginals (m_heap m) L = Ok mg /\ GetMarginals (m_heap m') L' = Ok mg' /\ mg v = Some (pf, pt) /\ mg' v = Some (pf', pt') /\ val pf = val pf' /\ val pt = val pt'.
Proof.
  intros A A' S N E E' Hv. destruct (marg_full val HP m i s t L A N E) as (mg & G & M & _). destruct (marg_full val HP m' j s t' L' A' (shuffled_normalized _ _ S N) E') as (mg' & G' & M' & _).
  destruct (M v Hv) as (pf & pt & Q & T & F & _), (M' v Hv) as (pf' & pt' & Q' & T' & F' & _). exists mg, mg', pf, pt, pf', pt'. do 4 (split; auto).
  rewrite (T (fun _ => true)), (F (fun _ => true)), (T' (fun _ => true)), (F' (fun _ => true)). split; apply sum_over_ext'; intros y; rewrite (proj1 (shuffled_sem _ _ S)); auto.
Qed.
End Queries.
