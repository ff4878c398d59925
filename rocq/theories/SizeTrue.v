(** The PSDD of a factor has one node at each vtree node whose variables the factor does not speak of (C96). *)
From Coq Require Import Reals.
From Verif Require Import Base Param ParamProofs Vtree VtreeProofs Spec Heap Manager HeapProofs SerProofs RepProofs OrderProofs CanonProofs MulProofs ProductNodes Pgm PgmLayout SizeProofs SizeAtProofs SizeNet.
Local Open Scope nat_scope.

Section SizeTrue.
Context {P : pops} {val : P -> R} (HP : pexact P val).
Notation heap := (heap P). Notation mgr := (mgr P). Notation node := (node P).
Let Hr : forall a : P, peq a a = true := val_peq_refl val HP.
Let Hi : forall a : P, plt a a = false := val_plt_irrefl val HP.

(** ** Nodes that stand for true *)
Inductive tru (m : mgr) : nat -> Prop :=
| tru_top i nd v a b : nth_error (m_heap m) i = Some nd -> n_flag nd = 0%N -> n_body nd = BTop v a b -> val a = val pone -> In i (m_live m) -> tru m i
| tru_dec i nd e : nth_error (m_heap m) i = Some nd -> n_flag nd = 0%N -> n_body nd = BDec [e] -> val (e_param e) = val pone -> In i (m_live m) ->
    tru m (e_prime e) -> tru m (e_sub e) -> tru m i.
Lemma tru_ext fl (m m' : mgr) i : mext fl m m' -> tru m i -> tru m' i.
Proof.
  intros X T. destruct (me_heap _ _ _ X) as (l & EH & _). assert (N : forall k nd, nth_error (m_heap m) k = Some nd -> nth_error (m_heap m') k = Some nd).
  { intros k nd E. rewrite EH, nth_error_app1; auto. apply nth_error_Some. congruence. }
  induction T; [eapply tru_top|eapply tru_dec]; eauto; apply (me_live _ _ _ X); auto.
Qed.
Lemma tru_reach (m : mgr) i j : reach (m_heap m) i j -> tru m i -> tru m j.
Proof.
  induction 1 as [|i nd c j E I R IH]; auto. intros T. apply IH. inversion T as [? nd' v a b E' _ B|? nd' e E' _ B _ _ T1 T2]; subst; assert (nd' = nd) as -> by congruence; unfold children in I; rewrite B in I.
  - destruct I.
  - cbn in I. destruct I as [<-|[<-|[]]]; auto.
Qed.
Lemma tru_unique (m : mgr) i : Wf m -> tru m i -> forall j p, vt_of (m_heap m) i = Some p -> vt_of (m_heap m) j = Some p -> tru m j -> i = j.
Proof.
  intros W T. induction T as [i nd v a b E F B A L|i nd e E F B A L T1 IH1 T2 IH2]; intros j p Vi Vj Tj.
  all: assert (FIN : forall nj, nth_error (m_heap m) j = Some nj -> In j (m_live m) -> node_eq nd nj = true -> i = j).
  1, 3: (intros nj Ej Lj EQ; unfold vt_of in Vi, Vj; rewrite E in Vi; rewrite Ej in Vj; cbn in Vi, Vj; injection Vi as Vi; injection Vj as Vj; apply (wf_canon _ W i j nd nj); auto;
       [unfold same_slot; rewrite Vi, Vj, Nat.eqb_refl; unfold node_eq in EQ; destruct (n_body nd), (n_body nj); auto; discriminate
       |apply (node_eq_equiv (val_peq_sym val HP) (val_peq_not_lt val HP)); auto]).
  all: pose proof (wf_heap _ W _ _ E) as O; unfold node_ok in O; rewrite B in O; unfold vt_of in Vi; rewrite E in Vi; cbn in Vi; injection Vi as Vi.
  all: inversion Tj as [? nj v' a' b' Ej Fj Bj Aj Lj|? nj e' Ej Fj Bj Aj Lj T1' T2']; subst; pose proof (wf_heap _ W _ _ Ej) as O'; unfold node_ok in O'; rewrite Bj in O';
    assert (n_vt nj = n_vt nd) as Vn by (unfold vt_of in Vj; rewrite Ej in Vj; cbn in Vj; congruence); rewrite Vn in O'.
  - apply (FIN nj); auto. assert (v' = v) by congruence. subst. unfold node_eq. rewrite B, Bj, N.eqb_refl, F, Fj. cbn. apply (val_eq HP). congruence.
  - destruct O' as (_ & (l & r & Q) & _). congruence.
  - destruct O as (_ & (l & r & Q) & _). congruence.
  - destruct O as (_ & _ & FO). destruct O' as (_ & _ & FO'). inversion FO as [|? ? (_ & _ & V1 & V2) _]; subst. inversion FO' as [|? ? (_ & _ & V1' & V2') _]; subst.
    assert (e_prime e = e_prime e') as Q1 by (eapply IH1; eauto). assert (e_sub e = e_sub e') as Q2 by (eapply IH2; eauto).
    apply (FIN nj); auto. unfold node_eq. rewrite B, Bj, F, Fj. cbn. rewrite Q1, Q2, !Nat.eqb_refl. cbn. rewrite andb_true_r. apply (val_eq HP). congruence.
Qed.
Lemma unique_body (m : mgr) nd i m' : Wf m -> node_ok (m_vt m) (m_heap m) (length (m_heap m)) nd -> GetUniqueNode m nd = (i, m') ->
  Wf m' /\ mext (n_flag nd) m m' /\ In i (m_live m') /\ exists nd', nth_error (m_heap m') i = Some nd' /\ n_vt nd' = n_vt nd /\ n_flag nd' = n_flag nd /\ body_sim val (n_body nd) (n_body nd').
Proof.
  intros W N E. destruct (unique_wf Hr Hi m nd i m' W N E) as (A & B & C & _ & nd' & D1 & D2 & D3 & _ & Q). do 3 (split; [assumption|]). exists nd'. do 3 (split; [assumption|]). apply (equiv_sim val HP); auto.
Qed.
Definition tm_tru (tm : tmap) (m : mgr) : Prop := forall k i, nlookup k tm = Some i -> tru m i.
Lemma tm_tru_ext fl tm (m m' : mgr) : mext fl m m' -> tm_tru tm m -> tm_tru tm m'.
Proof. intros X T k i E. eapply tru_ext; eauto. Qed.
Lemma tm_tru_insert tm (m : mgr) k i : tm_tru tm m -> tru m i -> tm_tru (tinsert tm k i) m.
Proof. intros T Ti k' j E. rewrite tinsert_lookup in E. destruct (nlookup k' tm) eqn:Q; [injection E as <-; eauto|]. destruct (Nat.eqb k' k); [injection E as <-; auto|discriminate]. Qed.
Lemma true_fold_tru f L : forall tm (m : mgr) tm' m', Wf m -> tm_wf tm m -> tm_tru tm m -> Forall (fun x => subtree (m_vt m) (fst x) = Some (snd x)) L ->
  foldM (true_step (get_true f) 0) L (tm, m) = Ok (tm', m') -> tm_tru tm' m'.
Proof.
  induction L as [|[p t] L IH]; intros tm m tm' m' W T TT F E; cbn [foldM] in E.
  - injection E as <- <-. auto.
  - bk E as [tm1 m1] E1. inversion F as [|? ? F1 F2]; subst. cbn [fst snd] in F1.
    destruct (true_step_wf Hr Hi _ (get_true_wf Hr Hi f) 0%N tm m p t tm1 m1 W T F1 E1) as (W1 & X1 & T1).
    assert (A1 : tm_tru tm1 m1).
    { unfold true_step in E1. destruct t as [v|l r].
      - bk E1 as [i m2] Et. injection E1 as <- <-. apply tm_tru_insert; [eapply tm_tru_ext; eauto|].
        unfold GetPsddTopNode in Et. rewrite (leaf_path_unique _ _ _ (wf_leaves _ W) F1) in Et. cbn [get bind] in Et. injection Et as Et.
        destruct (unique_body m (MkN p 0%N (BTop v pone pone)) i m2 W F1 Et) as (_ & _ & Li & nd' & D1 & _ & D3 & D4).
        cbn in D3, D4. destruct (n_body nd') as [|v' a' b'|] eqn:B; try contradiction. destruct D4 as [-> D4]. eapply tru_top; eauto.
      - destruct (nlookup (vpos (m_vt m) (false :: p)) tm) as [li|] eqn:El; [|discriminate].
        destruct (nlookup (vpos (m_vt m) (true :: p)) tm) as [ri|] eqn:Er; [|discriminate].
        bk E1 as [i m2] Et. injection E1 as <- <-. apply tm_tru_insert; [eapply tm_tru_ext; eauto|].
        destruct (T _ _ El) as (pl & sl & A1 & A2 & A3). destruct (T _ _ Er) as (pr & sr & B1 & B2 & B3).
        assert (pl = false :: p) as ->. { apply (vpos_inj (m_vt m) _ _ sl l); auto. simpl. rewrite F1. reflexivity. }
        assert (pr = true :: p) as ->. { apply (vpos_inj (m_vt m) _ _ sr r); auto. simpl. rewrite F1. reflexivity. }
        set (es := [MkE li ri pone] : list (elem P)). assert (D : direct m p es) by (constructor; [cbn; auto|constructor]).
        unfold conformed_with in Et. cbn [hd_error get bind] in Et. rewrite A3, B3 in Et. cbn [get bind] in Et.
        rewrite (vlca_split [] [] p : vlca (false :: p) (true :: p) = p) in Et.
        assert (forall b, vkid (m_vt m) p b = Some (b :: p)) as VK by (intros b; unfold vkid; rewrite F1; auto). rewrite !VK in Et.
        pose proof (conform_loop_direct (get_true f) p 0%N [] m es D) as E1. cbn [es map e_prime e_sub] in E1. rewrite E1 in Et. cbn [bind] in Et.
        unfold new_dec in Et. cbn [mk_elems param_at nth_error get bind] in Et.
        assert (Et' : GetUniqueNode m (MkN p 0%N (BDec es)) = (i, m2)) by (unfold es; cbn in Et |- *; congruence).
        destruct (unique_body m (MkN p 0%N (BDec es)) i m2 W) as (_ & X2 & Li & nd' & D1 & _ & D3 & D4); auto.
        { split; [discriminate|]. split; [eauto|]. constructor; [|constructor]. cbn. repeat split; auto; eapply vt_of_lt; eauto. }
        cbn in D3, D4. destruct (n_body nd') as [| |es'] eqn:B; try contradiction. inversion D4 as [|? e' ? l' (Q1 & Q2 & Q3) D5]; subst. inversion D5; subst. cbn in Q1, Q2, Q3.
        eapply tru_dec; [exact D1|exact D3|exact B|congruence|exact Li| |]; [rewrite <- Q1|rewrite <- Q2]; eapply tru_ext; eauto. }
    eapply (IH tm1 m1); eauto. rewrite (me_vt _ _ _ X1). exact F2.
Qed.
Lemma get_true_tru n p s tm (m : mgr) i tm' m' : Wf m -> tm_wf tm m -> tm_tru tm m -> subtree (m_vt m) p = Some s -> get_true n p 0 tm m = Ok (i, tm', m') -> tm_tru tm' m' /\ tru m' i.
Proof.
  intros W T TT S E. destruct n as [|n]; [discriminate|]. rewrite get_true_S in E. destruct (nlookup (vpos (m_vt m) p) tm) eqn:EN.
  { injection E as <- <- <-. split; eauto. }
  rewrite S in E. cbn [get bind] in E. bk E as ser E2. bk E as [tm1 m2] E3. destruct (nlookup (vpos (m_vt m) p) tm1) eqn:EN1; [|discriminate]. injection E as <- <- <-.
  assert (A : tm_tru tm1 m2); [|split; eauto]. eapply true_fold_tru; [exact W|exact T|exact TT| |exact E3]. apply Forall_rev. eapply ser_subtrees; eauto.
Qed.

(** ** What is built over the variables of [S] *)
Section Over.
Context (S : list N).
Definition touched (root : vtree) (p : path) : Prop := exists s v, subtree root p = Some s /\ In v (leaves s) /\ In v S.
Lemma touched_up root b p : touched root (b :: p) -> touched root p.
Proof.
  intros (s & v & E & I & J). simpl in E. destruct (subtree root p) as [[w|l r]|] eqn:Q; try discriminate. exists (VNode l r), v. split; [exact Q|]. split; auto. simpl. apply in_app_iff. destruct b; injection E as <-; auto.
Qed.
(** a node with several elements has variables of [S] on both sides *)
Definition thin (m : mgr) (j : nat) : Prop := forall nd es, nth_error (m_heap m) j = Some nd -> n_body nd = BDec es ->
  length es = 1 \/ touched (m_vt m) (false :: n_vt nd) /\ touched (m_vt m) (true :: n_vt nd).
Definition okc (m : mgr) (i : nat) : Prop := i < length (m_heap m) /\
  forall j q, reach (m_heap m) i j -> vt_of (m_heap m) j = Some q -> (touched (m_vt m) q \/ tru m j) /\ thin m j.
Definition clean (m : mgr) (i : nat) : Prop := okc m i /\ exists p, vt_of (m_heap m) i = Some p /\ touched (m_vt m) p.
Lemma okc_ext fl (m m' : mgr) i : Wf m -> mext fl m m' -> okc m i -> okc m' i.
Proof.
  intros W X [L H]. destruct (me_heap _ _ _ X) as (l & EH & _). split; [rewrite EH, app_length; lia|]. intros j q R V. rewrite EH in R, V.
  destruct (reach_back _ _ _ _ (heap_ok_closed _ _ (wf_heap _ W)) R L) as [R' L']. assert (V' : vt_of (m_heap m) j = Some q) by (unfold vt_of in *; rewrite nth_error_app1 in V; auto).
  destruct (H j q R' V') as [A TH]. split.
  - rewrite (me_vt _ _ _ X). destruct A as [A|A]; auto. right. eapply tru_ext; eauto.
  - intros nd es En B. rewrite (me_vt _ _ _ X). apply (TH nd es); auto. rewrite EH, nth_error_app1 in En; auto.
Qed.
Lemma clean_ext fl (m m' : mgr) i : Wf m -> mext fl m m' -> clean m i -> clean m' i.
Proof. intros W X [O (p & V & T)]. split; [eapply okc_ext; eauto|]. exists p. split; [eapply mext_vt; eauto|]. rewrite (me_vt _ _ _ X). auto. Qed.
Lemma tru_okc (m : mgr) i : tru m i -> okc m i.
Proof. intros T. split; [destruct T as [? ? ? ? ? E|? ? ? E]; apply nth_error_Some; congruence|]. intros j q R _. pose proof (tru_reach _ _ _ R T) as Tj. split; auto. intros nd es En B. left.
  destruct Tj as [? nd' v a b E _ B'|? nd' e E _ B']; rewrite E in En; injection En as ->; rewrite B' in B; [discriminate|injection B as <-; reflexivity]. Qed.
Lemma leaf_clean (m m' : mgr) nd i v p : Wf m -> In v S -> leaf_path (m_vt m) v = Some p -> n_vt nd = p -> (match n_body nd with BDec _ => False | BLit l => lit_var l = v | BTop w _ _ => w = v end) ->
  GetUniqueNode m nd = (i, m') -> clean m' i.
Proof.
  intros W I LP V B E. pose proof (leaf_path_spec (m_vt m) v) as SP. rewrite LP in SP.
  assert (N : node_ok (m_vt m) (m_heap m) (length (m_heap m)) nd) by (unfold node_ok; destruct (n_body nd); try contradiction; subst; auto).
  destruct (unique_body m nd i m' W N E) as (W' & X & L & nd' & D1 & D2 & _ & D4).
  assert (Vi : vt_of (m_heap m') i = Some p) by (unfold vt_of; rewrite D1; cbn; congruence).
  assert (T : touched (m_vt m') p) by (rewrite (me_vt _ _ _ X); exists (Leaf v), v; simpl; auto).
  split; [|exists p; auto]. split; [apply (wf_range _ W'); auto|]. intros j q R Vj. inversion R as [|? nd2 c ? E2 Ic R2]; subst.
  { split; [left; congruence|]. intros nd2 es E2 B2. exfalso. rewrite D1 in E2. injection E2 as <-. rewrite B2 in D4. destruct (n_body nd); contradiction. }
  exfalso. assert (nd2 = nd') as -> by congruence. unfold children in Ic. destruct (n_body nd); destruct (n_body nd'); contradiction.
Qed.
Lemma literal_clean (m : mgr) l i m' : Wf m -> In (lit_var l) S -> GetPsddLiteralNode m l 0 = Ok (i, m') -> clean m' i.
Proof.
  intros W I E. unfold GetPsddLiteralNode in E. fold (lit_var l) in E. destruct (leaf_path (m_vt m) (lit_var l)) as [p|] eqn:LP; [|discriminate]. cbn [get bind] in E. injection E as E.
  apply (leaf_clean m m' (MkN p 0%N (BLit l)) i (lit_var l) p); auto; reflexivity.
Qed.
Lemma top_clean (m : mgr) v a b i m' : Wf m -> In v S -> GetPsddTopNode m v 0 a b = Ok (i, m') -> clean m' i.
Proof.
  intros W I E. unfold GetPsddTopNode in E. destruct (leaf_path (m_vt m) v) as [p|] eqn:LP; [|discriminate]. cbn [get bind] in E. injection E as E.
  apply (leaf_clean m m' (MkN p 0%N (BTop v a b)) i v p); auto; reflexivity.
Qed.
Lemma F2_len {A B} (R : A -> B -> Prop) l l' : Forall2 R l l' -> length l = length l'.
Proof. induction 1; cbn; auto. Qed.
Lemma mk_elems_in (ws : list P) : forall ps k ss es e, mk_elems ws k ps ss = Ok es -> In e es -> In (e_prime e) ps /\ In (e_sub e) ss.
Proof.
  induction ps as [|p ps IH]; intros k [|s ss] es e E I; cbn [mk_elems] in E; try discriminate; [injection E as <-; destruct I|].
  bk E as w _. bk E as es' E1. injection E as <-. destruct I as [<-|I]; [cbn; auto|]. destruct (IH _ _ _ _ E1 I). split; right; auto.
Qed.
Lemma dec_clean (m : mgr) p ps ss ws i m' : Wf m -> (exists l r, subtree (m_vt m) p = Some (VNode l r)) -> ps <> [] ->
  Forall (fun c => vt_of (m_heap m) c = Some (false :: p)) ps -> Forall (fun c => vt_of (m_heap m) c = Some (true :: p)) ss ->
  Forall (okc m) ps -> Forall (okc m) ss -> touched (m_vt m) p -> length ps = 1 \/ touched (m_vt m) (false :: p) /\ touched (m_vt m) (true :: p) ->
  new_dec m p 0 ps ss ws = Ok (i, m') -> clean m' i.
Proof.
  intros W HV NE F1 F2 O1 O2 T TH E. destruct (new_dec_wf Hr Hi m p 0%N ps ss ws i m' W HV NE F1 F2 E) as (W' & X & L & V & es & nd' & M & D1 & _ & _ & _ & Q).
  apply (equiv_sim val HP) in Q. cbn [n_body] in Q. unfold body_sim in Q. destruct (n_body nd') as [| |es'] eqn:B; try contradiction.
  split; [|exists p; split; auto; rewrite (me_vt _ _ _ X); auto]. split; [apply (wf_range _ W'); auto|]. intros j q R Vj. inversion R as [|? nd2 c ? E2 Ic R2]; subst.
  - split; [left; rewrite (me_vt _ _ _ X); congruence|]. intros nd2 es2 E2 B2. rewrite D1 in E2. injection E2 as <-. rewrite B in B2. injection B2 as <-.
    assert (n_vt nd' = p) as -> by (unfold vt_of in V; rewrite D1 in V; cbn in V; congruence). rewrite (me_vt _ _ _ X). destruct TH as [TH|TH]; auto. left.
    rewrite <- (F2_len _ _ _ Q), (Permutation_length (sort_elems_perm es)), <- TH. clear - M. revert M. generalize 0. revert ss es. induction ps as [|x ps IH]; intros [|y ss] es k M; cbn [mk_elems] in M; try discriminate; [injection M as <-; auto|].
    bk M as w0 _. bk M as es0 M0. injection M as <-. cbn. f_equal. eapply IH; eauto.
  - assert (nd2 = nd') as -> by congruence. unfold children in Ic. rewrite B in Ic.
    assert (OC : okc m c).
    { assert (K : exists e', In e' es' /\ (c = e_prime e' \/ c = e_sub e')) by (apply in_app_iff in Ic as [Ic|Ic]; apply in_map_iff in Ic as (e' & <- & Ie); eauto).
      destruct K as (e' & Ie & K). assert (exists e, In e (sort_elems es) /\ elem_same val e e') as (e & Ie2 & (Q1 & Q2 & _)).
      { clear - Q Ie. induction Q as [|e e0 l l' HE Q IH]; [destruct Ie|]. destruct Ie as [<-|Ie]; [exists e; split; [left|]; auto|]. destruct (IH Ie) as (x & A & B). exists x. split; [right|]; auto. }
      apply (Permutation_in _ (sort_elems_perm es)) in Ie2. destruct (mk_elems_in _ _ _ _ _ _ M Ie2) as [P1 P2]. rewrite Forall_forall in O1, O2.
      destruct K as [->| ->]; [apply O1; congruence|apply O2; congruence]. }
    apply (okc_ext 0%N m m' c W X) in OC. destruct OC as [_ H]. eauto.
Qed.
Lemma norm_clean n : forall fuel target cur tm (m : mgr) i tm' m', Wf m -> tm_wf tm m -> tm_tru tm m -> clean m cur ->
  norm_loop (get_true n) fuel target 0 cur tm m = Ok (i, tm', m') -> clean m' i /\ tm_tru tm' m'.
Proof.
  induction fuel as [|f IH]; intros target cur tm m i tm' m' W T TT C E; cbn [norm_loop] in E; [discriminate|]. pose proof C as (OC & q & V & TQ).
  unfold vt_of in V. destruct (nth_error (m_heap m) cur) as [nd|] eqn:En; [|discriminate]. cbn [get bind option_map] in *. injection V as V. rewrite V in E.
  destruct (opath_eqb q target); [injection E as <- <- <-; auto|].
  assert (Vc : vt_of (m_heap m) cur = Some q) by (unfold vt_of; rewrite En; cbn; congruence). destruct q as [|b parent]; [discriminate|].
  pose proof TQ as (sc & v0 & Sc & _). assert (exists l r, subtree (m_vt m) parent = Some (VNode l r)) as (l & r & HV) by (simpl in Sc; destruct (subtree (m_vt m) parent) as [[v|l r]|]; try discriminate; eauto).
  assert (SB : forall b', subtree (m_vt m) (b' :: parent) = Some (if b' then r else l)) by (intros b'; simpl; rewrite HV; destruct b'; reflexivity). apply touched_up in TQ.
  destruct b; bk E as [[x tm2] m2] Eg.
  - destruct (get_true_wf Hr Hi n _ _ _ _ _ _ _ W T (ex_intro _ _ (SB false)) Eg) as (W2 & X2 & T2 & V2). destruct (get_true_tru n _ _ _ _ _ _ _ W T TT (SB false) Eg) as [TT2 Tx].
    bk E as [next m3] Ed.
    assert (HV2 : exists l r, subtree (m_vt m2) parent = Some (VNode l r)) by (rewrite (me_vt _ _ _ X2); eauto).
    assert (Vc2 : vt_of (m_heap m2) cur = Some (true :: parent)) by (eapply mext_vt; eauto).
    destruct (new_dec_wf Hr Hi m2 parent 0%N [x] [cur] [pone] next m3 W2 HV2) as (W3 & X3 & _ & V3 & _); auto. { discriminate. }
    assert (CN : clean m3 next).
    { apply (dec_clean m2 parent [x] [cur] [pone] next m3); auto; [discriminate|constructor; [apply tru_okc; auto|constructor]|constructor; [exact (okc_ext _ _ _ _ W X2 OC)|constructor]|rewrite (me_vt _ _ _ X2); auto]. }
    eapply (IH target next tm2 m3); eauto; [eapply tm_wf_ext; eauto|eapply tm_tru_ext; eauto].
  - destruct (get_true_wf Hr Hi n _ _ _ _ _ _ _ W T (ex_intro _ _ (SB true)) Eg) as (W2 & X2 & T2 & V2). destruct (get_true_tru n _ _ _ _ _ _ _ W T TT (SB true) Eg) as [TT2 Tx].
    bk E as [next m3] Ed.
    assert (HV2 : exists l r, subtree (m_vt m2) parent = Some (VNode l r)) by (rewrite (me_vt _ _ _ X2); eauto).
    assert (Vc2 : vt_of (m_heap m2) cur = Some (false :: parent)) by (eapply mext_vt; eauto).
    destruct (new_dec_wf Hr Hi m2 parent 0%N [cur] [x] [pone] next m3 W2 HV2) as (W3 & X3 & _ & V3 & _); auto. { discriminate. }
    assert (CN : clean m3 next).
    { apply (dec_clean m2 parent [cur] [x] [pone] next m3); auto; [discriminate|constructor; [exact (okc_ext _ _ _ _ W X2 OC)|constructor]|constructor; [apply tru_okc; auto|constructor]|rewrite (me_vt _ _ _ X2); auto]. }
    eapply (IH target next tm2 m3); eauto; [eapply tm_wf_ext; eauto|eapply tm_tru_ext; eauto].
Qed.
Lemma normalize_clean n target cur tm (m : mgr) i tm' m' : Wf m -> tm_wf tm m -> tm_tru tm m -> clean m cur ->
  normalize_with (get_true n) target 0 cur tm m = Ok (i, tm', m') -> clean m' i /\ tm_tru tm' m'.
Proof. intros W T TT C E. unfold normalize_with in E. bk E as vt _. eapply norm_clean; eauto. Qed.
Lemma conform_clean n lp rp : forall primes subs tm (m : mgr) ps ss m', Wf m -> tm_wf tm m -> tm_tru tm m -> Forall (clean m) primes -> Forall (clean m) subs ->
  conform_loop (get_true n) lp rp 0 primes subs tm m = Ok (ps, ss, m') -> Forall (clean m') ps /\ Forall (clean m') ss.
Proof.
  induction primes as [|p primes IH]; intros subs tm m ps ss m' W T TT F1 F2 E; cbn [conform_loop] in E.
  - injection E as <- <- <-. auto.
  - destruct subs as [|s subs]; [discriminate|]. bk E as [[p' tm1] m1] E1. bk E as [[s' tm2] m2] E2. bk E as [[ps' ss'] m3] E3. injection E as <- <- <-.
    inversion F1 as [|? ? C1 F1']; subst. inversion F2 as [|? ? C2 F2']; subst.
    destruct (normalize_with_wf Hr Hi _ (get_true_wf Hr Hi n) _ _ _ _ _ _ _ _ W T E1) as (W1 & X1 & T1 & _). destruct (normalize_clean n _ _ _ _ _ _ _ W T TT C1 E1) as [D1 TT1].
    destruct (normalize_with_wf Hr Hi _ (get_true_wf Hr Hi n) _ _ _ _ _ _ _ _ W1 T1 E2) as (W2 & X2 & T2 & _). destruct (normalize_clean n _ _ _ _ _ _ _ W1 T1 TT1 (clean_ext _ _ _ _ W X1 C2) E2) as [D2 TT2].
    assert (KE : forall c, clean m c -> clean m2 c) by (intros c C; exact (clean_ext _ _ _ _ W1 X2 (clean_ext _ _ _ _ W X1 C))).
    destruct (conform_loop_wf Hr Hi _ (get_true_wf Hr Hi n) _ _ _ _ _ _ _ _ _ _ W2 T2 E3) as (W3 & X3 & _).
    destruct (IH subs tm2 m2 ps' ss' m3 W2 T2 TT2) as [A B]; auto; [eapply Forall_impl; [exact KE|auto]..|].
    split; constructor; auto; [exact (clean_ext _ _ _ _ W2 X3 (clean_ext _ _ _ _ W1 X2 D1))|exact (clean_ext _ _ _ _ W2 X3 D2)].
Qed.
Lemma conformed_clean (m : mgr) primes subs ws i m' : Wf m -> Forall (clean m) primes -> Forall (clean m) subs -> GetConformedPsddDecisionNode m primes subs ws 0 = Ok (i, m') -> clean m' i.
Proof.
  intros W F1 F2 E. unfold GetConformedPsddDecisionNode, conformed_with in E. bk E as p0 Ep. bk E as s0 _. bk E as vp _. bk E as vs _. bk E as [[ps ss] m1] El.
  destruct (conform_loop_wf Hr Hi _ (get_true_wf Hr Hi gt_fuel) _ _ _ _ _ _ _ _ _ _ W (tm_wf_nil _) El) as (W1 & X1 & N1 & N2 & G1 & G2).
  destruct (conform_clean gt_fuel _ _ _ _ _ _ _ _ _ W (tm_wf_nil _) ltac:(intros ? ? Q; discriminate Q) F1 F2 El) as [C1 C2].
  assert (NE : ps <> []) by (destruct primes; [discriminate|]; destruct ps; [discriminate|discriminate]).
  assert (exists l r, subtree (m_vt m) (vlca vp vs) = Some (VNode l r)) as (l & r & HV).
  { destruct ps as [|x ps]; [congruence|]. inversion G1 as [|? ? (q & Hq & _) _]; subst. unfold vkid in Hq. destruct (subtree (m_vt m) (vlca vp vs)) as [[v|l r]|]; try discriminate. eauto. }
  unfold vkid in G1, G2. rewrite HV in G1, G2.
  assert (G1' : Forall (fun c => vt_of (m_heap m1) c = Some (false :: vlca vp vs)) ps) by (eapply Forall_impl; [|exact G1]; intros a (q & Hq & H); congruence).
  assert (G2' : Forall (fun c => vt_of (m_heap m1) c = Some (true :: vlca vp vs)) ss) by (eapply Forall_impl; [|exact G2]; intros a (q & Hq & H); congruence).
  eapply (dec_clean m1 (vlca vp vs) ps ss ws); eauto.
  - exists l, r. rewrite (me_vt _ _ _ X1). auto.
  - eapply Forall_impl; [|exact C1]. intros a [H _]. exact H.
  - eapply Forall_impl; [|exact C2]. intros a [H _]. exact H.
  - destruct ps as [|x ps]; [congruence|]. inversion C1 as [|? ? (_ & q & V & T) _]; subst. inversion G1' as [|? ? V' _]; subst. rewrite V' in V. injection V as <-. eapply touched_up; eauto.
  - right. assert (NS : ss <> []) by (destruct ps; [congruence|]; destruct ss; [unfold new_dec in E; cbn in E; discriminate|discriminate]).
    destruct ps as [|x ps]; [congruence|]. destruct ss as [|y ss]; [congruence|]. inversion C1 as [|? ? (_ & q & V & T) _]; subst. inversion G1' as [|? ? V' _]; subst. rewrite V' in V. injection V as <-.
    inversion C2 as [|? ? (_ & q & V & T2) _]; subst. inversion G2' as [|? ? V2 _]; subst. rewrite V2 in V. injection V as <-. auto.
Qed.

(** ** compile_factor *)
Definition cleano (m : mgr) (x : option nat) : Prop := match x with Some i => clean m i | None => True end.
Lemma cleano_ext fl (m m' : mgr) x : Wf m -> mext fl m m' -> cleano m x -> cleano m' x.
Proof. destruct x; cbn; auto. apply clean_ext. Qed.
Lemma term_clean v pos neg (m : mgr) x m' : Wf m -> In v S -> term_node v pos neg m = Ok (x, m') -> cleano m' (fst x).
Proof.
  intros W I E. unfold term_node in E. destruct (peq (padd pos neg) pzero); [injection E as <- <-; exact Logic.I|].
  destruct (peq pos pzero); [|destruct (peq neg pzero)]; bk E as [i m1] E1; injection E as <- <-; cbn.
  - eapply literal_clean; eauto. unfold lit_var. rewrite Zabs2N.inj_opp, Zabs2N.id. auto.
  - eapply literal_clean; eauto. unfold lit_var. rewrite Zabs2N.id. auto.
  - eapply top_clean; eauto.
Qed.
Lemma cond_clean v pos neg sp sn (m : mgr) x m' : Wf m -> In v S -> cleano m sp -> cleano m sn -> cond_node v pos neg sp sn m = Ok (x, m') -> cleano m' (fst x).
Proof.
  intros W I Cp Cn E. assert (I1 : In (lit_var (- Z.of_N v)) S) by (unfold lit_var; rewrite Zabs2N.inj_opp, Zabs2N.id; auto). assert (I2 : In (lit_var (Z.of_N v)) S) by (unfold lit_var; rewrite Zabs2N.id; auto).
  unfold cond_node in E. destruct (peq (padd pos neg) pzero); [injection E as <- <-; exact Logic.I|].
  destruct (peq pos pzero); [|destruct (peq neg pzero)]; bk E as [i m1] E1; [pose proof (literal_clean _ _ _ _ W I1 E1) as K|pose proof (literal_clean _ _ _ _ W I2 E1) as K..];
    apply (literal_wf Hr Hi) in E1 as (W1 & X1 & _); auto; apply (cleano_ext _ _ _ _ W X1) in Cp, Cn.
  - destruct sn as [s|]; [|discriminate]. cbn [get bind] in E. bk E as [j m2] E2. injection E as <- <-. eapply conformed_clean; [exact W1| | |exact E2]; constructor; auto.
  - destruct sp as [s|]; [|discriminate]. cbn [get bind] in E. bk E as [j m2] E2. injection E as <- <-. eapply conformed_clean; [exact W1| | |exact E2]; constructor; auto.
  - bk E as [j m2] E2. pose proof (literal_clean _ _ _ _ W1 I1 E2) as K2. apply (literal_wf Hr Hi) in E2 as (W2 & X2 & _); auto. apply (cleano_ext _ _ _ _ W1 X2) in Cp, Cn. apply (clean_ext _ _ _ _ W1 X2) in K.
    destruct sp as [s1|]; [|discriminate]. destruct sn as [s2|]; [|discriminate]. cbn [get bind] in E. bk E as [k m3] E3. injection E as <- <-. eapply conformed_clean; [exact W2| | |exact E3]; repeat (apply Forall_cons || apply Forall_nil); auto.
Qed.
Definition cache_clean (m : mgr) (nc : @ncache) : Prop := Forall (fun x => cleano m (snd x)) nc.
Lemma cache_ext fl (m m' : mgr) nc : Wf m -> mext fl m m' -> cache_clean m nc -> cache_clean m' nc.
Proof. intros W X. apply Forall_impl. intros a. apply cleano_ext with fl; auto. Qed.
Lemma at_clean (m : mgr) nc k x : cache_clean m nc -> at_ k nc = Ok x -> cleano m x.
Proof.
  intros C E. unfold at_ in E. destruct (Nlookup k nc) as [y|] eqn:Q; [|discriminate]. injection E as <-. revert Q. induction C as [|[k' y'] nc H C IH]; cbn [Nlookup]; [discriminate|].
  intros Q. unfold Nlookup in Q. cbn in Q. destruct (N.eqb k k'); [injection Q as <-; exact H|]. apply IH. exact Q.
Qed.
Lemma term_fold_clean table v loc : In v S -> forall ks nc zc (m : mgr) nc' zc' m', Wf m -> cache_clean m nc -> foldM (term_step table v loc) ks (nc, zc, m) = Ok (nc', zc', m') ->
  Wf m' /\ mext 0%N m m' /\ cache_clean m' nc'.
Proof.
  intros I. induction ks as [|k ks IH]; intros nc zc m nc' zc' m' W C E; cbn [foldM] in E; [injection E as <- <- <-; auto using mext_refl|].
  bk E as [[nc1 zc1] m1] E1.
  assert (Wf m1 /\ mext 0%N m m1 /\ cache_clean m1 nc1) as (W1 & X1 & C1).
  { unfold term_step in E1. destruct (Nlookup _ nc); [injection E1 as <- <- <-; auto using mext_refl|].
    bk E1 as ng _. bk E1 as ps _. bk E1 as [x n1] Q1. injection E1 as <- <- <-. destruct (term_node_wf Hr Hi _ _ _ _ _ _ W Q1) as [W1 X1].
    split; auto. split; auto. constructor; [exact (term_clean _ _ _ _ _ _ W I Q1)|exact (cache_ext _ _ _ _ W X1 C)]. }
  apply IH in E as (W2 & X2 & C2); auto. split; auto. split; [exact (mext_trans _ _ _ _ X1 X2)|auto].
Qed.
Lemma cond_fold_clean nc0 zc0 v loc : In v S -> forall ks nc zc (m : mgr) nc' zc' m', Wf m -> cache_clean m nc0 -> cache_clean m nc -> foldM (cond_step nc0 zc0 v loc) ks (nc, zc, m) = Ok (nc', zc', m') ->
  Wf m' /\ mext 0%N m m' /\ cache_clean m' nc'.
Proof.
  intros I. induction ks as [|k ks IH]; intros nc zc m nc' zc' m' W C0 C E; cbn [foldM] in E; [injection E as <- <- <-; auto using mext_refl|].
  bk E as [[nc1 zc1] m1] E1.
  assert (Wf m1 /\ mext 0%N m m1 /\ cache_clean m1 nc1) as (W1 & X1 & C1).
  { unfold cond_step in E1. destruct (Nlookup _ nc); [injection E1 as <- <- <-; auto using mext_refl|].
    bk E1 as q1 _. bk E1 as q2 _. bk E1 as q3 A3. bk E1 as q4 A4. bk E1 as [x n1] Q1. injection E1 as <- <- <-. destruct (cond_node_wf Hr Hi _ _ _ _ _ _ _ _ W Q1) as [W1 X1].
    split; auto. split; auto. constructor; [eapply cond_clean; [exact W|exact I|exact (at_clean _ _ _ _ C0 A4)|exact (at_clean _ _ _ _ C0 A3)|exact Q1]|exact (cache_ext _ _ _ _ W X1 C)]. }
  apply IH in E as (W2 & X2 & C2); auto; [|exact (cache_ext _ _ _ _ W X1 C0)]. split; auto. split; [exact (mext_trans _ _ _ _ X1 X2)|auto].
Qed.
Lemma level_fold_clean ord : forall rest k nc zc (m : mgr) k' nc' zc' m', Forall (fun x => In (fst x) S) rest -> Wf m -> cache_clean m nc -> foldM (level_step ord) rest (k, nc, zc, m) = Ok (k', nc', zc', m') ->
  Wf m' /\ mext 0%N m m' /\ cache_clean m' nc'.
Proof.
  induction rest as [|[v l] rest IH]; intros k nc zc m k' nc' zc' m' F W C E; cbn [foldM] in E; [injection E as <- <- <- <-; auto using mext_refl|].
  inversion F as [|? ? Iv F']; subst. cbn in Iv.
  bk E as [[[k1 nc1] zc1] m1] E1. unfold level_step in E1. bk E1 as loc _. bk E1 as [[nc2 zc2] n1] Q1. injection E1 as <- <- <- <-. cbn [fst snd] in *.
  apply cond_fold_clean in Q1 as (W1 & X1 & C1); auto; [|constructor]. apply IH in E as (W2 & X2 & C2); auto. split; auto. split; [exact (mext_trans _ _ _ _ X1 X2)|auto].
Qed.
End Over.
Theorem compile_factor_clean ord (F : factor P) (m : mgr) i z m' : Wf m -> compile_factor ord F m = Ok (i, z, m') -> clean (f_scope F) m' i.
Proof.
  intros W E. unfold compile_factor in E. bk E as ser _. set (locs := flat_map _ _) in E. set (leafs := sort_pos _ _) in *. bk E as u _.
  assert (IS : Forall (fun x : N * nat => In (fst x) (f_scope F)) (combine (map snd leafs) locs)).
  { apply Forall_forall. intros [v l] I. apply in_combine_l in I. apply in_map_iff in I as ([q w] & Q & I). cbn in Q. subst w. apply (Permutation_in _ (sort_pos_perm _ _)) in I.
    apply in_leaf_v_nodes in I as [_ I]. cbn. apply in_rev. auto. }
  destruct (combine _ _) as [|[v l] rest]; [discriminate|]. inversion IS as [|? ? Iv IR]; subst. cbn in Iv. bk E as loc _.
  bk E as [[nc zc] m1] E1. apply (term_fold_clean (f_scope F)) in E1 as (W1 & X1 & C1); auto; [|constructor]. cbn [fst snd] in E.
  bk E as [[[k nc2] zc2] m2] E2. apply (level_fold_clean (f_scope F)) in E2 as (W2 & X2 & C2); auto. bk E as u1 _. bk E as r A. bk E as z1 _. bk E as j B. bk E as [j' m3] E3. injection E as <- <- <-.
  pose proof (at_clean _ _ _ _ _ C2 A) as CR. destruct r as [r|]; [|discriminate]. injection B as ->. cbn in CR. unfold NormalizePsddNode in E3. bk E3 as [[j1 tm1] m4] E4. injection E3 as <- <-.
  exact (proj1 (normalize_clean (f_scope F) _ _ _ _ _ _ _ _ W2 (tm_wf_nil _) ltac:(intros ? ? Q; discriminate Q) CR E4)).
Qed.
Theorem load_factors_clean ords : forall (fs : network P) k z (m : mgr) nodes z' m', Wf m -> load_factors ords k fs z m = Ok (nodes, z', m') -> Forall2 (fun F i => clean (f_scope F) m' i) fs nodes.
Proof.
  induction fs as [|F fs IH]; intros k z m nodes z' m' W E; cbn [load_factors] in E.
  - injection E as <- <- <-. constructor.
  - bk E as [[i z1] m1] E1. bk E as [[ns z2] m2] E2. injection E as <- <- <-. destruct (compile_factor_wf Hr Hi _ _ _ _ _ _ W E1) as (W1 & X1 & _). pose proof (compile_factor_clean _ _ _ _ _ _ W E1) as C.
    destruct (load_factors_wf Hr Hi _ _ _ _ _ _ _ _ W1 E2) as (W2 & X2 & _). apply Forall2_cons; [exact (clean_ext _ _ _ _ _ W1 X2 C)|exact (IH _ _ _ _ _ _ W1 E2)].
Qed.
(** one node where nothing is touched *)
Lemma clean_one S (m : mgr) i p : Wf m -> clean S m i -> ~ touched S (m_vt m) p -> at_most (m_heap m) i p 1 1.
Proof.
  intros W [[_ H] _] NT L ND HL. assert (K : forall j, In j L -> tru m j /\ vt_of (m_heap m) j = Some p).
  { intros j I. destruct (HL j I) as [R V]. destruct (H j p R V) as [[]]; [contradiction|auto]. }
  destruct L as [|j [|j' L]]; [cbn; lia| |].
  - cbn. split; auto. destruct (K j (or_introl eq_refl)) as [T _]. unfold width_at, width. destruct T as [? nd v a b E _ B|? nd e E _ B]; rewrite E, B; cbn; lia.
  - exfalso. destruct (K j (or_introl eq_refl)) as [T V]. destruct (K j' (or_intror (or_introl eq_refl))) as [T' V']. assert (j = j') by (eapply tru_unique; eauto). subst. inversion ND as [|? ? N _]. apply N. left. auto.
Qed.
(** one node where everything lies below *)
Lemma reach_last (h : heap) i j : reach h i j -> i = j \/ exists k nd, reach h i k /\ nth_error h k = Some nd /\ In j (children nd).
Proof.
  induction 1 as [|i nd c j E I R IH]; auto. right. destruct IH as [<-|(k & nd' & R' & E' & I')]; [exists i, nd; split; [constructor|auto]|].
  exists k, nd'. split; auto. econstructor; eauto.
Qed.
Lemma reach_parent root (h : heap) i j q : heap_ok root h -> reach h i j -> i <> j -> vt_of h j = Some q ->
  exists b p k nd es e, q = b :: p /\ reach h i k /\ nth_error h k = Some nd /\ n_vt nd = p /\ n_body nd = BDec es /\ In e es /\ j = if b then e_sub e else e_prime e.
Proof.
  intros H R NE V. destruct (reach_last _ _ _ R) as [|(k & nd & R' & E & I)]; [contradiction|]. apply in_children in I as (es & e & B & Ie & J).
  pose proof (H _ _ E) as O. unfold node_ok in O. rewrite B in O. destruct O as (_ & _ & F). rewrite Forall_forall in F. destruct (F e Ie) as (_ & _ & V1 & V2).
  destruct J as [->| ->]; [exists false|exists true]; exists (n_vt nd), k, nd, es, e; (split; [congruence|]); auto 7.
Qed.
Lemma clean_within S (m : mgr) i : Wf m -> clean S m i -> vt_of (m_heap m) i = Some [] -> forall p s, subtree (m_vt m) p = Some s -> (forall v, In v S -> In v (leaves s)) ->
  forall j j', reach (m_heap m) i j -> reach (m_heap m) i j' -> vt_of (m_heap m) j = Some p -> vt_of (m_heap m) j' = Some p -> j = j'.
Proof.
  intros W [[_ H] _] Vi. induction p as [|b p IH]; intros s Hs HS j j' R R' V V'.
  - assert (K : forall x, reach (m_heap m) i x -> vt_of (m_heap m) x = Some [] -> i = x).
    { intros x Rx Vx. destruct (Nat.eq_dec i x) as [|NE]; auto. destruct (reach_parent _ _ _ _ _ (wf_heap _ W) Rx NE Vx) as (b & p & k & nd & es & e & Q & _). discriminate. }
    rewrite <- (K j R V), <- (K j' R' V'). reflexivity.
  - assert (NE : i <> j) by congruence. assert (NE' : i <> j') by congruence.
    destruct (reach_parent _ _ _ _ _ (wf_heap _ W) R NE V) as (b1 & p1 & k & nd & es & e & Q & Rk & Ek & Vk & B & Ie & ->). injection Q as <- <-.
    destruct (reach_parent _ _ _ _ _ (wf_heap _ W) R' NE' V') as (b1 & p1 & k' & nd' & es' & e' & Q & Rk' & Ek' & Vk' & B' & Ie' & ->). injection Q as <- <-.
    assert (Vk1 : vt_of (m_heap m) k = Some p) by (unfold vt_of; rewrite Ek; cbn; rewrite Vk; reflexivity). assert (Vk2 : vt_of (m_heap m) k' = Some p) by (unfold vt_of; rewrite Ek'; cbn; rewrite Vk'; reflexivity).
    cbn [subtree] in Hs. destruct (subtree (m_vt m) p) as [[v|l r]|] eqn:Sp; try discriminate.
    assert (k = k') as <-. { apply (IH _ eq_refl); auto. intros v Iv. specialize (HS v Iv). cbn [leaves]. apply in_app_iff. destruct b; injection Hs as <-; auto. }
    assert (nd' = nd) as -> by congruence. assert (es' = es) as -> by congruence.
    destruct (H k p Rk Vk1) as [_ TH]. destruct (TH nd es Ek B) as [L1|[T1 T2]].
    + destruct es as [|e0 [|]]; try discriminate. destruct Ie as [<-|[]]. destruct Ie' as [<-|[]]. reflexivity.
    + exfalso. assert (T : touched S (m_vt m) (negb b :: p)) by (rewrite Vk in T1, T2; destruct b; auto). destruct T as (s' & v & Q & Iv & Sv). specialize (HS v Sv).
      pose proof (subtree_nodup _ (wf_leaves _ W) _ _ Sp) as ND. cbn [leaves] in ND. apply NoDup_app_inv in ND as (_ & _ & DJ). cbn [subtree] in Q. rewrite Sp in Q.
      destruct b; cbn in Q; injection Hs as <-; injection Q as <-; eapply DJ; eauto.
Qed.
End SizeTrue.
