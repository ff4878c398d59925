(** Products in any order and bracketing end in the same node (C69). *)
From Coq Require Import Reals Lra Sorted.
From Verif Require Import Base Param ParamProofs Vtree VtreeProofs Spec SpecProofs TreeProofs Heap Manager HeapProofs SerProofs
  RepProofs OrderProofs CanonProofs LoadProofs MulProofs ReplayProofs ProductTrees.
Local Open Scope R_scope.

Section Nodes.
Context {P : pops} (val : P -> R) (HP : pexact P val).
Notation heap := (heap P). Notation mgr := (mgr P). Notation node := (node P).
Notation node_at := (node_at val). Notation Inv := (Inv val).

(** Everything below the node is in the table, has the flag [fl], and its elements are sorted. *)
Inductive kept (fl : N) (m : mgr) : nat -> Prop :=
| kept_leaf i nd : nth_error (m_heap m) i = Some nd -> (forall es, n_body nd <> BDec es) -> In i (m_live m) -> n_flag nd = fl -> kept fl m i
| kept_dec i nd es : nth_error (m_heap m) i = Some nd -> n_body nd = BDec es -> In i (m_live m) -> n_flag nd = fl -> StronglySorted ple es ->
    (forall e, In e es -> kept fl m (e_prime e)) -> (forall e, In e es -> kept fl m (e_sub e)) -> kept fl m i.
Lemma grow_nth (m m' : mgr) i nd : grow m m' -> nth_error (m_heap m) i = Some nd -> nth_error (m_heap m') i = Some nd.
Proof. intros (_ & (l & ->) & _) E. rewrite nth_error_app1; auto. apply nth_error_Some. congruence. Qed.
Lemma kept_grow fl (m m' : mgr) i : grow m m' -> kept fl m i -> kept fl m' i.
Proof.
  intros G. induction 1 as [i nd E B L F|i nd es E B L F S _ K1 _ K2].
  - eapply kept_leaf; eauto using grow_nth. apply G; auto.
  - eapply kept_dec; eauto using grow_nth. apply G; auto.
Qed.
Lemma kept_mext fl fl' (m m' : mgr) i : mext fl' m m' -> kept fl m i -> kept fl m' i.
Proof. intros X. apply kept_grow. eapply mext_grow; eauto. Qed.
Lemma node_at_grow (m m' : mgr) i p t : grow m m' -> node_at m i p t -> node_at m' i p t.
Proof.
  intros G [A B]. split.
  - unfold vt_of in *. destruct (nth_error (m_heap m) i) as [nd|] eqn:E; [|discriminate]. rewrite (grow_nth _ _ _ _ G E). auto.
  - destruct G as (_ & (l & ->) & _). apply Rep_ext. auto.
Qed.

Lemma val_peq_sym (a b : P) : peq a b = peq b a.
Proof. apply eq_true_iff_eq. rewrite !(val_eq HP). split; auto. Qed.
Lemma val_peq_not_lt (a b : P) : peq a b = true -> plt a b = false.
Proof. intros E. apply (val_eq HP) in E. destruct (plt a b) eqn:L; auto. apply (val_lt HP) in L. lra. Qed.
(** ** Two sorted lists with distinct primes that match element by element *)
Lemma sorted_match (R : elem P -> elem P -> Prop) : (forall a b, R a b -> e_prime a = e_prime b) -> forall l1 l2,
  StronglySorted ple l1 -> StronglySorted ple l2 -> NoDup (map e_prime l1) -> NoDup (map e_prime l2) ->
  (forall a, In a l1 -> exists b, In b l2 /\ R a b) -> (forall b, In b l2 -> exists a, In a l1 /\ R a b) -> Forall2 R l1 l2.
Proof.
  intros HR. induction l1 as [|a l1 IH]; intros l2 S1 S2 N1 N2 M1 M2.
  - destruct l2 as [|b l2]; auto. destruct (M2 b) as (? & [] & _). left; auto.
  - destruct l2 as [|b l2]; [destruct (M1 a) as (? & [] & _); left; auto|].
    inversion S1 as [|? ? S1' F1]; subst. inversion S2 as [|? ? S2' F2]; subst. simpl in N1, N2.
    inversion N1 as [|? ? NI1 N1']; subst. inversion N2 as [|? ? NI2 N2']; subst. rewrite Forall_forall in F1, F2. unfold ple in F1, F2.
    assert (e_prime a = e_prime b) as EP.
    { destruct (M1 a (or_introl eq_refl)) as (b' & Hb' & R1). destruct (M2 b (or_introl eq_refl)) as (a' & Ha' & R2). apply HR in R1, R2.
      destruct Hb' as [<-|Hb']; auto. destruct Ha' as [<-|Ha']; auto. apply F2 in Hb'. apply F1 in Ha'. lia. }
    assert (R a b) as Rab.
    { destruct (M1 a (or_introl eq_refl)) as (b' & [<-|Hb'] & R1); auto. exfalso. apply NI2. rewrite <- EP, (HR _ _ R1). apply in_map; auto. }
    constructor; auto. apply IH; auto.
    + intros a' Ha'. destruct (M1 a' (or_intror Ha')) as (b' & [<-|Hb'] & R1); eauto. exfalso. apply NI1. rewrite EP, <- (HR _ _ R1). apply in_map; auto.
    + intros b' Hb'. destruct (M2 b' (or_intror Hb')) as (a' & [<-|Ha'] & R1); eauto. exfalso. apply NI2. rewrite <- EP, (HR _ _ R1). apply in_map; auto.
Qed.
Lemma elems_eq_same (l1 l2 : list (elem P)) : Forall2 (elem_same val) l1 l2 -> elems_eq l1 l2 = true.
Proof.
  induction 1 as [|a b l1 l2 (E1 & E2 & E3) F IH]; simpl; auto. rewrite E1, E2, !Nat.eqb_refl, IH.
  rewrite (proj2 (val_eq HP _ _) E3). auto.
Qed.
Lemma weight_elem x es e : ForallOrdPairs disj es -> In e es -> base (tp e) x = true ->
  weight (TDec es) x = weight (tp e) x * weight (ts e) x * tw e.
Proof.
  intros FO I BP. rewrite weight_dec. revert I. induction FO as [|f l F FO IH]; intros I; [contradiction|]. rewrite Forall_forall in F. simpl.
  destruct I as [->|I].
  - rewrite (rsum_ext _ (fun _ => 0)); [rewrite rsum_0; lra|].
    intros g Hg. rewrite (weight_zero_off_base (tp g) x); [lra|]. specialize (F g Hg x). rewrite BP in F. simpl in F. auto.
  - rewrite IH by auto. specialize (F e I x). rewrite BP, andb_true_r in F. rewrite (weight_zero_off_base (tp f) x F). lra.
Qed.
Lemma FOP_in {A} (R : A -> A -> Prop) l a b : ForallOrdPairs R l -> In a l -> In b l -> a = b \/ R a b \/ R b a.
Proof.
  induction 1 as [|x l F FO IH]; intros Ha Hb; [contradiction|]. rewrite Forall_forall in F.
  destruct Ha as [<-|Ha], Hb as [<-|Hb]; auto.
Qed.
Lemma det_primes (m : mgr) p a b es tes : Wf m -> subtree (m_vt m) p = Some (VNode a b) ->
  Forall2 (elem_at val m p) es tes -> ForallOrdPairs disj tes -> NoDup (map e_prime es).
Proof.
  intros W S F D. revert D. induction F as [|e te es tes (A & B & C) F IH]; intros D; simpl; [constructor|]. inversion D as [|? ? D1 D2]; subst.
  constructor; auto. intros HI. apply in_map_iff in HI as (e' & EQ & He'). destruct (Forall2_in_l _ _ _ _ F He') as (te' & Hte' & A' & _ & _).
  rewrite EQ in A'. destruct (node_at_fun _ _ _ _ _ _ _ A A') as [_ ET]. rewrite Forall_forall in D1. specialize (D1 te' Hte').
  destruct (node_at_conforms val m _ _ _ W A) as (s & Hs & Cs). destruct (base_sat s) with (t := tp te) as [x Hx]; auto.
  { eapply subtree_nodup; [apply W|exact Hs]. }
  specialize (D1 x). rewrite <- ET, Hx in D1. discriminate.
Qed.

Lemma nstr_lit_inv l z : nstr l (TLit z) -> In (TLit z) l /\ forall t, In t l -> t = TLit z \/ exists v a b, t = TTop v a b.
Proof. intros N. inversion N; subst. split; auto. apply Forall_forall. auto. Qed.
Lemma nstr_top_inv l v a b : nstr l (TTop v a b) -> forall t, In t l -> exists a b, t = TTop v a b.
Proof. intros N. inversion N; subst. apply Forall_forall. auto. Qed.

(** ** Products of the same trees are the same node *)
Lemma same_node fl (m : mgr) s : Wf m -> forall p i j t t' l, subtree (m_vt m) p = Some s -> node_at m i p t -> node_at m j p t' ->
  kept fl m i -> kept fl m j -> positive t -> positive t' -> normalized t -> normalized t' -> deterministic t -> deterministic t' ->
  nsem l t -> nsem l t' -> nstr l t -> nstr l t' -> i = j.
Proof.
  intros W. induction s as [v|a IHa b IHb]; intros p i j t t' l S Ni Nj Ki Kj Pt Pt' Nt Nt' Dt Dt' M M' T T'.
  all: pose proof (subtree_nodup _ (wf_leaves _ W) _ _ S) as ND.
  all: destruct (node_at_conforms val m i p t W Ni) as (s1 & S1 & C); rewrite S in S1; injection S1 as <-.
  all: destruct (node_at_conforms val m j p t' W Nj) as (s2 & S2 & C'); rewrite S in S2; injection S2 as <-.
  all: pose proof (nsem_fun _ l t t' ND C C' Nt Nt' M M') as EW.
  all: assert (exists ni nj, nth_error (m_heap m) i = Some ni /\ nth_error (m_heap m) j = Some nj /\ In i (m_live m) /\ In j (m_live m) /\
         n_flag ni = fl /\ n_flag nj = fl /\ n_vt ni = p /\ n_vt nj = p) as (ni & nj & Ei & Ej & Li & Lj & Fi & Fj & Vi & Vj).
  1,3: destruct Ni as [Vi _], Nj as [Vj _]; unfold vt_of in Vi, Vj;
       inversion Ki as [? ni Ei _ Li Fi|? ni ? Ei _ Li Fi]; subst; inversion Kj as [? nj Ej _ Lj Fj|? nj ? Ej _ Lj Fj]; subst;
       rewrite Ei in Vi; rewrite Ej in Vj; simpl in Vi, Vj; injection Vi as Vi; injection Vj as Vj; exists ni, nj; auto 12.
  all: assert (node_eq ni nj = true -> i = j) as FIN by
      (intros EQ; apply (wf_canon _ W i j ni nj); auto;
       [unfold same_slot; rewrite Vi, Vj, Nat.eqb_refl; unfold node_eq in EQ; destruct (n_body ni), (n_body nj); auto; discriminate
       |apply (node_eq_equiv val_peq_sym val_peq_not_lt); auto]).
  - destruct Ni as [_ Ri], Nj as [_ Rj]. destruct t as [z|w ta tb|es]; destruct t' as [z'|w' ta' tb'|es']; simpl in C, C'; try contradiction.
    + assert (z = z') as <-.
      { apply nstr_lit_inv in T as [_ T], T' as [T' _]. destruct (T _ T') as [Q|(? & ? & ? & Q)]; congruence. }
      apply Rep_lit_inv in Ri as (n1 & E1 & B1), Rj as (n2 & E2 & B2). rewrite Ei in E1. rewrite Ej in E2. injection E1 as <-. injection E2 as <-.
      apply FIN. unfold node_eq. rewrite B1, B2, Z.eqb_refl, Fi, Fj, N.eqb_refl. auto.
    + exfalso. apply nstr_lit_inv in T as [T _]. destruct (nstr_top_inv _ _ _ _ T' _ T) as (? & ? & ?). discriminate.
    + exfalso. apply nstr_lit_inv in T' as [T' _]. destruct (nstr_top_inv _ _ _ _ T _ T') as (? & ? & ?). discriminate.
    + subst w w'. apply Rep_top_inv in Ri as (n1 & a1 & b1 & E1 & B1 & -> & ->), Rj as (n2 & a2 & b2 & E2 & B2 & -> & ->).
      rewrite Ei in E1. rewrite Ej in E2. injection E1 as <-. injection E2 as <-.
      apply FIN. unfold node_eq. rewrite B1, B2, N.eqb_refl, Fi, Fj, N.eqb_refl. simpl. apply (val_eq HP). exact (EW (fun _ => true)).
  - pose proof Ni as [_ Ri]. pose proof Nj as [_ Rj].
    destruct t as [z|w ta tb|tes]; simpl in C; try contradiction. destruct t' as [z|w ta tb|tes']; simpl in C'; try contradiction.
    apply Rep_dec_inv in Ri as (n1 & es & E1 & B1 & F1), Rj as (n2 & es' & E2 & B2 & F2).
    rewrite Ei in E1. rewrite Ej in E2. injection E1 as <-. injection E2 as <-.
    assert (forall k nk ek, nth_error (m_heap m) k = Some nk -> n_body nk = BDec ek -> kept fl m k ->
      StronglySorted ple ek /\ forall e, In e ek -> kept fl m (e_prime e) /\ kept fl m (e_sub e)) as KI.
    { intros k nk ek Ek Bk Kk. inversion Kk as [? n0 E0 NB|? n0 e0 E0 B0 _ _ SO K1 K2]; subst; rewrite Ek in E0; injection E0 as <-; [exfalso; eapply NB; eauto|].
      rewrite Bk in B0. injection B0 as <-. auto. }
    destruct (KI i ni es Ei B1 Ki) as [So Kc]. destruct (KI j nj es' Ej B2 Kj) as [So' Kc'].
    assert (forall k nk ek tk, nth_error (m_heap m) k = Some nk -> n_body nk = BDec ek -> n_vt nk = p -> Forall2 (ElemRep val (m_heap m)) ek tk -> Forall2 (elem_at val m p) ek tk) as EA.
    { intros k nk ek tk Ek Bk Vk Fk. pose proof (wf_heap _ W _ _ Ek) as NO. unfold node_ok in NO. rewrite Bk in NO. destruct NO as (_ & _ & FE).
      rewrite Forall_forall in FE. eapply Forall2_impl_in; [|exact Fk]. intros e te He _ (X1 & X2 & X3). destruct (FE e He) as (_ & _ & V1 & V2). rewrite Vk in V1, V2.
      split; [split; auto|]. split; [split; auto|auto]. }
    pose proof (EA i ni es tes Ei B1 Vi F1) as A1. pose proof (EA j nj es' tes' Ej B2 Vj F2) as A2.
    apply all_nodes_dec in Dt as [Dt Dts], Dt' as [Dt' Dts']. apply all_nodes_dec in Pt as [Pt Pts], Pt' as [Pt' Pts'].
    apply all_nodes_dec in Nt as [_ Nts], Nt' as [_ Nts']. rewrite Forall_forall in Dts, Dts', Pts, Pts', Nts, Nts'.
    pose proof (det_primes m p a b es tes W S A1 Dt) as ND1. pose proof (det_primes m p a b es' tes' W S A2 Dt') as ND2.
    destruct C as [_ C], C' as [_ C']. rewrite Forall_forall in C, C'.
    assert (subtree (m_vt m) (false :: p) = Some a /\ subtree (m_vt m) (true :: p) = Some b) as [Sa Sb] by (cbn [subtree]; rewrite S; auto).
    simpl in ND. destruct (NoDup_app_inv _ _ ND) as (NDa & NDb & _).
    (* matching elements are the same *)
    assert (forall e te e' te' c, In e es -> In te tes -> elem_at val m p e te -> In e' es' -> In te' tes' -> elem_at val m p e' te' ->
      nsem (map tp c) (tp te) /\ nsem (map ts c) (ts te) /\ nstr (map tp c) (tp te) /\ nstr (map ts c) (ts te) ->
      nsem (map tp c) (tp te') /\ nsem (map ts c) (ts te') /\ nstr (map tp c) (tp te') /\ nstr (map ts c) (ts te') -> elem_same val e e') as K.
    { intros e te e' te' c He Hte (U1 & U2 & U3) He' Hte' (V1 & V2 & V3) (X1 & X2 & X3 & X4) (Y1 & Y2 & Y3 & Y4).
      destruct (Kc e He), (Kc' e' He'), (C te Hte) as [Ca Cb], (C' te' Hte') as [Ca' Cb'], (Dts te Hte), (Dts' te' Hte'), (Pts te Hte), (Pts' te' Hte'), (Nts te Hte), (Nts' te' Hte').
      split; [eapply (IHa (false :: p)); eauto|]. split; [eapply (IHb (true :: p)); eauto|].
      pose proof (nsem_fun a _ (tp te) (tp te') NDa Ca Ca' ltac:(assumption) ltac:(assumption) X1 Y1) as W1.
      pose proof (nsem_fun b _ (ts te) (ts te') NDb Cb Cb' ltac:(assumption) ltac:(assumption) X2 Y2) as W2.
      destruct (base_sat (VNode a b)) with (t := TDec [te]) as [x Hx].
      { simpl. auto. } { simpl. split; [discriminate|]. constructor; auto. }
      simpl in Hx. rewrite orb_false_r in Hx. apply andb_true_iff in Hx as [Hx1 Hx2]. fold (tp te) in Hx1. fold (ts te) in Hx2.
      pose proof (weight_elem x tes te Dt Hte Hx1) as Q1.
      assert (base (tp te') x = true) as Hx1' by (rewrite (proj2 Y1), <- (proj2 X1); auto).
      pose proof (weight_elem x tes' te' Dt' Hte' Hx1') as Q2. rewrite <- EW, Q1, <- W1, <- W2 in Q2.
      rewrite <- U3, <- V3.
      assert (0 < weight (tp te) x) by (apply weight_pos_base; auto). assert (0 < weight (ts te) x) by (apply weight_pos_base; auto).
      assert (0 < weight (tp te) x * weight (ts te) x) by (apply Rmult_lt_0_compat; auto).
      apply (Rmult_eq_reg_l (weight (tp te) x * weight (ts te) x)); lra. }
    inversion T as [| |fs gs T1 T2 E3 E4]; subst gs. inversion T' as [| |fs' gs' T1' T2' E3' E4']; subst gs'. rewrite <- E3 in E3'.
    assert (fs' = fs) as -> by (revert E3'; clear; revert fs'; induction fs as [|f fs IH]; intros [|f' fs'] E; try discriminate; auto; simpl in E; injection E as -> E; f_equal; auto).
    assert (forall g (c : list (ptree * ptree * R)), In g tes -> nsem (map tp c) (tp g) -> nsem (map ts c) (ts g) -> (exists x, bprod (map tp c) x = true) /\ (exists x, bprod (map ts c) x = true)) as ST.
    { intros g c Hg X1 X2. destruct (C g Hg) as [Ca Cb]. destruct (base_sat a NDa _ Ca) as [x Hx], (base_sat b NDb _ Cb) as [y Hy].
      split; [exists x; rewrite <- (proj2 X1)|exists y; rewrite <- (proj2 X2)]; auto. }
    assert (forall g (c : list (ptree * ptree * R)), In g tes' -> nsem (map tp c) (tp g) -> nsem (map ts c) (ts g) -> (exists x, bprod (map tp c) x = true) /\ (exists x, bprod (map ts c) x = true)) as ST'.
    { intros g c Hg X1 X2. destruct (C' g Hg) as [Ca Cb]. destruct (base_sat a NDa _ Ca) as [x Hx], (base_sat b NDb _ Cb) as [y Hy].
      split; [exists x; rewrite <- (proj2 X1)|exists y; rewrite <- (proj2 X2)]; auto. }
    apply FIN. unfold node_eq. rewrite B1, B2, Fi, Fj, N.eqb_refl. simpl. apply elems_eq_same. apply sorted_match; auto.
    + intros e e' (Q & _). auto.
    + intros e He. destruct (Forall2_in_l _ _ _ _ A1 He) as (te & Hte & Ae). destruct (T1 te Hte) as (c & Fc & X).
      destruct (ST te c Hte) as [Z1 Z2]; try apply X. destruct (T2' c Fc Z1 Z2) as (te' & Hte' & Y).
      destruct (Forall2_in_r _ _ _ _ A2 Hte') as (e' & He' & Ae'). exists e'. split; auto. eapply (K e te e' te' c); eauto.
    + intros e' He'. destruct (Forall2_in_l _ _ _ _ A2 He') as (te' & Hte' & Ae'). destruct (T1' te' Hte') as (c & Fc & Y).
      destruct (ST' te' c Hte') as [Z1 Z2]; try apply Y. destruct (T2 c Fc Z1 Z2) as (te & Hte & X).
      destruct (Forall2_in_r _ _ _ _ A1 Hte) as (e & He & Ae). exists e. split; auto. eapply (K e te e' te' c); eauto.
Qed.
End Nodes.
