(** One node per PSDD: two nodes of a manager whose trees differ only in the order of elements are the same node, if everything below
    them is in the unique table with one flag (C70). *)
From Coq Require Import Reals Lra Sorted.
From Verif Require Import Base Param ParamProofs Vtree VtreeProofs Spec SpecProofs TreeProofs Heap Manager HeapProofs SerProofs
  RepProofs OrderProofs CanonProofs LoadProofs MulProofs ReplayProofs IOProofs ProductTrees ProductNodes.

Section Sort.
Context {P : pops}.
Notation heap := (heap P). Notation mgr := (mgr P).
(** ** Elements are sorted in every history *)
Definition sortedH (m : mgr) : Prop := forall i nd es, nth_error (m_heap m) i = Some nd -> n_body nd = BDec es -> StronglySorted ple es.
Notation sprog := (prog (fun _ (_ _ : P) => True) (fun _ : P => True)).
Lemma sprog_keeps {X} (f : mgr -> res (X * mgr)) : sprog f -> forall m x m1, f m = Ok (x, m1) -> sortedH m -> sortedH m1.
Proof.
  induction 1; intros m x0 m1 E T.
  - injection E as <- <-. auto.
  - exfalso. eapply H; eauto.
  - bk E as [y m'] E1. eauto.
  - bk E as y' E1. eauto.
  - eauto.
  - injection E as E. unfold GetUniqueNode in E. destruct (find _ (m_live m)); injection E as <- <-; auto.
    intros i nd0 es En Eb. simpl in En. destruct (Nat.lt_ge_cases i (length (m_heap m))) as [L|L].
    + rewrite nth_error_app1 in En by auto. eapply T; eauto.
    + rewrite nth_error_app2 in En by auto. destruct (i - length (m_heap m))%nat as [|[|]]; simpl in En; try discriminate.
      injection En as <-. unfold okn in H. rewrite Eb in H. apply H.
  - rewrite <- H in E. eauto.
Qed.
Lemma all_T {A} (l : list A) : Forall (fun _ => True) l.
Proof. apply Forall_forall. auto. Qed.
Lemma sort_lit l f m x m1 : GetPsddLiteralNode m l f = Ok (x, m1) -> sortedH m -> sortedH m1.
Proof. intros E. refine (sprog_keeps (fun m => GetPsddLiteralNode m l f) _ m x m1 E). apply prog_literal. Qed.
Lemma sort_top v f a b m x m1 : GetPsddTopNode m v f a b = Ok (x, m1) -> sortedH m -> sortedH m1.
Proof. intros E. refine (sprog_keeps (fun m => GetPsddTopNode m v f a b) _ m x m1 E). apply prog_top. auto. Qed.
Lemma sort_conf ps ss ws f m x m1 : GetConformedPsddDecisionNode m ps ss ws f = Ok (x, m1) -> sortedH m -> sortedH m1.
Proof. intros E. refine (sprog_keeps (fun m => GetConformedPsddDecisionNode m ps ss ws f) _ m x m1 E). apply prog_Conformed; auto. apply Forall_forall; auto. Qed.
Lemma sort_mul_fold (rec : nat -> nat -> mgr * mcache -> res (mres * (mgr * mcache))) :
  (forall a b s r s', sortedH (fst s) -> rec a b s = Ok (r, s') -> sortedH (fst s')) ->
  forall L acc part s acc' part' s', sortedH (fst s) -> foldM (mul_pair rec) L (acc, part, s) = Ok (acc', part', s') -> sortedH (fst s').
Proof.
  intros HR. induction L as [|[a b] L IH]; intros acc part s acc' part' s' W E; cbn [foldM] in E.
  - injection E as <- <- <-. auto.
  - bk E as [[acc1 part1] s1] E1. unfold mul_pair in E1.
    bk E1 as [pr s2] E2. apply HR in E2; auto.
    destruct (fst pr) as [pi|].
    + bk E1 as [sr s3] E3. apply HR in E3; auto.
      assert (s1 = s3) as -> by (destruct (fst sr); congruence). eauto.
    + injection E1 as <- <- <-. eauto.
Qed.
Ltac done_mul H := unfold cache_update in H; repeat (apply bind_ok in H as (? & ? & H)); injection H as <- <-; simpl; auto.
Lemma sort_mul_cache fl fuel : forall a b s r s', sortedH (fst s) -> multiply_with_cache fuel fl a b s = Ok (r, s') -> sortedH (fst s').
Proof.
  induction fuel as [|f IH]; intros a b [m c] r s' W E; cbn [multiply_with_cache] in E; [discriminate|]. simpl in W.
  bk E as pos _.
  destruct (alookup key_eqb (pos, a, b) c) as [x|]; [injection E as <- <-; auto|].
  bk E as na _. bk E as nb _. bk E as _ _.
  destruct (n_body na) as [la|va ta fa|ea] eqn:Ea; destruct (n_body nb) as [lb|vb tb fb|eb] eqn:Eb; try discriminate.
  - bk E as _ _. destruct (Z.eqb la lb).
    + bk E as [i m1] E1. apply sort_lit in E1; auto. done_mul E.
    + done_mul E.
  - bk E as _ _. bk E as [i m1] E1. apply sort_lit in E1; auto. done_mul E.
  - bk E as _ _. bk E as [i m1] E1. apply sort_lit in E1; auto. done_mul E.
  - bk E as _ _. bk E as [i m1] E1. apply sort_top in E1; auto.
    bk E as nd _. destruct (n_body nd); try discriminate. done_mul E.
  - bk E as [[acc part] [m1 c1]] E1. apply (sort_mul_fold _ IH) in E1; auto. simpl in E1.
    destruct acc as [|e acc].
    + done_mul E.
    + bk E as _ _. bk E as [i m2] E2. apply sort_conf in E2; auto. done_mul E.
Qed.
Lemma sort_step (m : mgr) o m' : sortedH m -> step m o = Ok m' -> sortedH m'.
Proof.
  intros S E. destruct o as [v f pt pf|l f|ps ss ws f|p f|tg i f|hs ud tg r f|a b f|used|flags]; cbn [step] in E.
  - bk E as [i m1] E1. injection E as <-. eapply sort_top; eauto.
  - bk E as [i m1] E1. injection E as <-. eapply sort_lit; eauto.
  - bk E as [i m1] E1. injection E as <-. eapply sort_conf; eauto.
  - bk E as [i m1] E1. injection E as <-. refine (sprog_keeps (GetTrueNode p f) _ m _ m1 E1 S). apply prog_GetTrueNode; auto.
  - bk E as [i' m1] E1. injection E as <-. refine (sprog_keeps (NormalizePsddNode tg i f) _ m _ m1 E1 S). apply prog_Normalize; auto.
  - bk E as [[i' u'] m1] E1. injection E as <-. refine (sprog_keeps (LoadPsddNode hs ud tg r f) _ m _ m1 E1 S). apply prog_Load; auto.
    intros i nd En. destruct (n_body nd) as [|v pt pf|] eqn:Eb; auto. apply Forall_forall; auto.
  - bk E as [r m1] E1. injection E as <-. unfold Multiply in E1. bk E1 as [r1 s1] E2. injection E1 as <- <-. apply sort_mul_cache in E2; auto.
  - unfold DeleteUnusedPsddNodes in E. bk E as c Ec. injection E as <-. exact S.
  - injection E as <-. exact S.
Qed.
Lemma sort_new t : sortedH (new_mgr t).
Proof. intros i nd es E. destruct i; discriminate. Qed.
Lemma sort_runs ops : forall m m' : mgr, sortedH m -> runs m ops = Ok m' -> sortedH m'.
Proof.
  unfold runs. induction ops as [|o ops IH]; intros m m' S E; cbn [foldM] in E; [injection E as <-; auto|].
  bk E as m1 E1. eapply IH; [|exact E]. eapply sort_step; eauto.
Qed.

(** ** Everything below the node is in the table and has the flag [fl] *)
Definition held (fl : N) (m : mgr) (i : nat) : Prop := forall k, reach (m_heap m) i k -> In k (m_live m) /\ flag_of (m_heap m) k = Some fl.
Lemma held_kept fl (m : mgr) : Wf m -> sortedH m -> forall i, held fl m i -> kept fl m i.
Proof.
  intros W S i. induction i as [i IH] using (well_founded_induction lt_wf). intros H.
  destruct (H i (reach_refl _ _)) as [L F]. unfold flag_of in F. destruct (nth_error (m_heap m) i) as [nd|] eqn:E; [|discriminate]. simpl in F. injection F as F.
  destruct (n_body nd) as [l|v a b|es] eqn:B.
  - refine (kept_leaf fl m i nd E _ L F). congruence.
  - refine (kept_leaf fl m i nd E _ L F). congruence.
  - pose proof (wf_heap _ W _ _ E) as NO. unfold node_ok in NO. rewrite B in NO. destruct NO as (_ & _ & FE). rewrite Forall_forall in FE.
    assert (forall e, In e es -> In (e_prime e) (children nd) /\ In (e_sub e) (children nd)) as CH.
    { intros e He. unfold children. rewrite B. split; apply in_or_app; [left|right]; apply in_map; auto. }
    refine (kept_dec fl m i nd es E B L F (S i nd es E B) _ _); intros e He; destruct (FE e He) as (L1 & L2 & _), (CH e He) as [C1 C2]; apply IH; auto; intros k Hk; apply H.
    + exact (reach_step _ i nd (e_prime e) k E C1 Hk).
    + exact (reach_step _ i nd (e_sub e) k E C2 Hk).
Qed.
Lemma held_grow fl (m m' : mgr) i : Wf m -> held fl m i -> grow m m' -> held fl m' i.
Proof.
  intros W H G k Hk.
  assert (forall k, reach (m_heap m') i k -> reach (m_heap m) i k) as RB.
  { clear k Hk. intros k Hk. assert (In i (m_live m)) as Li by (apply (H i), reach_refl). assert (i < length (m_heap m))%nat as Ll by (apply W; auto). clear H Li.
    induction Hk as [i|i nd c k E C R IH]; [constructor|].
    destruct (nth_error (m_heap m) i) as [nd0|] eqn:E0; [|apply nth_error_None in E0; lia]. rewrite (grow_nth _ _ _ _ G E0) in E. injection E as ->.
    econstructor; eauto. apply IH. pose proof (heap_ok_child _ _ _ _ _ (wf_heap _ W) E0 C) as [Lc _]. lia. }
  destruct (H k (RB k Hk)) as [L F]. split; [apply G; auto|]. unfold flag_of in *. destruct (nth_error (m_heap m) k) as [nd|] eqn:E; [|discriminate].
  rewrite (grow_nth _ _ _ _ G E). auto.
Qed.
End Sort.

Section One.
Context {P : pops} (val : P -> R) (HP : pexact P val).
Notation heap := (heap P). Notation mgr := (mgr P). Notation node_at := (node_at val).
Local Open Scope R_scope.
Notation sh := (fun e e1 => shuffled (tp e) (tp e1) /\ shuffled (ts e) (ts e1) /\ tw e1 = tw e).

Lemma F2_length {A B} (R : A -> B -> Prop) l l' : Forall2 R l l' -> length l = length l'.
Proof. induction 1; simpl; auto. Qed.
Lemma shuffled_refl t : shuffled t t.
Proof.
  induction t as [z|v a b|es IH] using ptree_ind2; try constructor. apply (sh_dec es es es); auto.
  induction IH as [|e es [A B] F IHF]; constructor; auto.
Qed.
Lemma kept_dec_inv fl (m : mgr) k nk ek : nth_error (m_heap m) k = Some nk -> n_body nk = BDec ek -> kept fl m k ->
  StronglySorted ple ek /\ forall e, In e ek -> kept fl m (e_prime e) /\ kept fl m (e_sub e).
Proof.
  intros Ek Bk Kk. inversion Kk as [? n0 E0 NB|? n0 e0 E0 B0 _ _ SO K1 K2]; subst; rewrite Ek in E0; injection E0 as <-; [exfalso; eapply NB; eauto|].
  rewrite Bk in B0. injection B0 as <-. auto.
Qed.
Lemma kept_at fl (m : mgr) i p t : kept fl m i -> node_at m i p t -> exists nd, nth_error (m_heap m) i = Some nd /\ In i (m_live m) /\ n_flag nd = fl /\ n_vt nd = p.
Proof.
  intros K [V _]. unfold vt_of in V. inversion K as [? nd E _ L F|? nd ? E _ L F]; subst; rewrite E in V; simpl in V; injection V as V; eauto.
Qed.
Lemma dec_at (m : mgr) i p tes : Wf m -> node_at m i p (TDec tes) ->
  exists nd es, nth_error (m_heap m) i = Some nd /\ n_body nd = BDec es /\ Forall2 (elem_at val m p) es tes /\ exists a b, subtree (m_vt m) p = Some (VNode a b).
Proof.
  intros W [V R]. apply Rep_dec_inv in R as (nd & es & E & B & F). exists nd, es. split; auto. split; auto.
  unfold vt_of in V. rewrite E in V. simpl in V. injection V as V. pose proof (wf_heap _ W _ _ E) as NO. unfold node_ok in NO. rewrite B in NO.
  destruct NO as (_ & SU & FE). rewrite V in *. split; auto. rewrite Forall_forall in FE. eapply Forall2_impl_in; [|exact F]. intros e te He _ (X1 & X2 & X3).
  destruct (FE e He) as (_ & _ & V1 & V2). split; [split; auto|]. split; [split; auto|auto].
Qed.

(** Two nodes whose trees are shuffles of one deterministic tree *)
Lemma same_shuffled fl (m : mgr) : Wf m -> forall t p i j t1 t2, node_at m i p t1 -> node_at m j p t2 -> kept fl m i -> kept fl m j ->
  shuffled t t1 -> shuffled t t2 -> deterministic t -> i = j.
Proof.
  intros W. induction t as [z|v a b|tes IH] using ptree_ind2; intros p i j t1 t2 Ni Nj Ki Kj S1 S2 D.
  all: destruct (kept_at _ _ _ _ _ Ki Ni) as (ni & Ei & Li & Fi & Vi), (kept_at _ _ _ _ _ Kj Nj) as (nj & Ej & Lj & Fj & Vj).
  all: assert (node_eq ni nj = true -> i = j) as FIN by
      (intros EQ; apply (wf_canon _ W i j ni nj); auto;
       [unfold same_slot; rewrite Vi, Vj, Nat.eqb_refl; unfold node_eq in EQ; destruct (n_body ni), (n_body nj); auto; discriminate
       |apply (node_eq_equiv (val_peq_sym val HP) (val_peq_not_lt val HP)); auto]).
  - inversion S1; inversion S2; subst. destruct Ni as [_ Ri], Nj as [_ Rj].
    apply Rep_lit_inv in Ri as (n1 & E1 & B1), Rj as (n2 & E2 & B2). rewrite Ei in E1. rewrite Ej in E2. injection E1 as <-. injection E2 as <-.
    apply FIN. unfold node_eq. rewrite B1, B2, Z.eqb_refl, Fj, N.eqb_refl. auto.
  - inversion S1; inversion S2; subst. destruct Ni as [_ Ri], Nj as [_ Rj].
    apply Rep_top_inv in Ri as (n1 & a1 & b1 & E1 & B1 & Q1 & Q2), Rj as (n2 & a2 & b2 & E2 & B2 & Q3 & Q4).
    rewrite Ei in E1. rewrite Ej in E2. injection E1 as <-. injection E2 as <-.
    apply FIN. unfold node_eq. rewrite B1, B2, N.eqb_refl, Fj, N.eqb_refl. simpl. apply (val_eq HP). congruence.
  - pose proof (lk_det _ _ (shuffled_like _ _ S1) D) as D1. pose proof (lk_det _ _ (shuffled_like _ _ S2) D) as D2.
    apply shuffled_dec_inv in S1 as (us & us' & -> & F1 & PM1), S2 as (ws & ws' & -> & F2 & PM2).
    destruct (dec_at m i p us' W Ni) as (n1 & es & E1 & B1 & A1 & la & lb & SU), (dec_at m j p ws' W Nj) as (n2 & es' & E2 & B2 & A2 & _).
    rewrite Ei in E1. rewrite Ej in E2. injection E1 as <-. injection E2 as <-.
    destruct (kept_dec_inv _ _ _ _ _ Ei B1 Ki) as [So Kc], (kept_dec_inv _ _ _ _ _ Ej B2 Kj) as [So' Kc'].
    apply all_nodes_dec in D as [_ D], D1 as [D1 _], D2 as [D2 _]. rewrite Forall_forall in D, IH.
    pose proof (det_primes val m p la lb es us' W SU A1 D1) as ND1. pose proof (det_primes val m p la lb es' ws' W SU A2 D2) as ND2.
    assert (forall e e' te u w, In te tes -> sh te u -> sh te w -> In e es -> In e' es' -> elem_at val m p e u -> elem_at val m p e' w -> elem_same val e e') as K.
    { intros e e' te u w Hte (X1 & X2 & X3) (Y1 & Y2 & Y3) He He' (U1 & U2 & U3) (V1 & V2 & V3).
      destruct (IH te Hte) as [IH1 IH2], (D te Hte) as [Da Db], (Kc e He), (Kc' e' He'). split; [eapply IH1; eauto|]. split; [eapply IH2; eauto|]. congruence. }
    apply FIN. unfold node_eq. rewrite B1, B2, Fi, Fj, N.eqb_refl. simpl. apply (elems_eq_same val HP). apply sorted_match; auto.
    + intros e e' (Q & _). auto.
    + intros e He. destruct (Forall2_in_l _ _ _ _ A1 He) as (u & Hu & Ae). apply (Permutation_in _ (Permutation_sym PM1)) in Hu.
      destruct (Forall2_in_r _ _ _ _ F1 Hu) as (te & Hte & X). destruct (Forall2_in_l _ _ _ _ F2 Hte) as (w & Hw & Y). apply (Permutation_in _ PM2) in Hw.
      destruct (Forall2_in_r _ _ _ _ A2 Hw) as (e' & He' & Ae'). exists e'. split; auto. eapply (K e e' te u w); eauto.
    + intros e' He'. destruct (Forall2_in_l _ _ _ _ A2 He') as (w & Hw & Ae'). apply (Permutation_in _ (Permutation_sym PM2)) in Hw.
      destruct (Forall2_in_r _ _ _ _ F2 Hw) as (te & Hte & Y). destruct (Forall2_in_l _ _ _ _ F1 Hte) as (u & Hu & X). apply (Permutation_in _ PM1) in Hu.
      destruct (Forall2_in_r _ _ _ _ A1 Hu) as (e & He & Ae). exists e. split; auto. eapply (K e e' te u w); eauto.
Qed.

(** ** Asking for a held node, with a shuffle of its elements *)
Let O := pord_exact P val HP.
Lemma unique_held (m : mgr) nd i ndi : Wf m -> In i (m_live m) -> nth_error (m_heap m) i = Some ndi -> n_vt nd = n_vt ndi -> node_eq nd ndi = true -> GetUniqueNode m nd = (i, m).
Proof. intros W L E V Q. apply (unique_again (fun _ => True) O m nd i ndi); auto; intros; unfold node_good; destruct (n_body _); auto; apply all_T. Qed.
Lemma lit_held fl (m : mgr) i p z : Wf m -> kept fl m i -> node_at m i p (TLit z) -> GetPsddLiteralNode m z fl = Ok (i, m).
Proof.
  intros W K A. destruct (kept_at _ _ _ _ _ K A) as (nd & E & L & F & V). destruct A as [_ R]. apply Rep_lit_inv in R as (n1 & E1 & B). rewrite E in E1. injection E1 as <-.
  pose proof (wf_heap _ W _ _ E) as NO. unfold node_ok in NO. rewrite B in NO. unfold GetPsddLiteralNode. unfold lit_var in NO. rewrite (leaf_path_unique _ _ _ (wf_leaves _ W) NO).
  f_equal. eapply unique_held; eauto. unfold node_eq. simpl. rewrite B, Z.eqb_refl, F, N.eqb_refl. auto.
Qed.
Lemma top_held fl (m : mgr) i p v a b pt pf : Wf m -> kept fl m i -> node_at m i p (TTop v a b) -> val pt = a -> GetPsddTopNode m v fl pt pf = Ok (i, m).
Proof.
  intros W K A Ea. destruct (kept_at _ _ _ _ _ K A) as (nd & E & L & F & V). destruct A as [_ R]. apply Rep_top_inv in R as (n1 & a1 & b1 & E1 & B & Q & _). rewrite E in E1. injection E1 as <-.
  pose proof (wf_heap _ W _ _ E) as NO. unfold node_ok in NO. rewrite B in NO. unfold GetPsddTopNode. rewrite (leaf_path_unique _ _ _ (wf_leaves _ W) NO).
  f_equal. eapply unique_held; eauto. unfold node_eq. simpl. rewrite B, N.eqb_refl, F, N.eqb_refl. simpl. apply (val_eq HP). congruence.
Qed.
(** [js]: the elements asked for, in any order; each is held, and stands for the element of the tree at the same place *)
Definition elem_held fl (m : mgr) p (e : elem P) (te : ptree * ptree * R) : Prop :=
  exists t1 t2, node_at m (e_prime e) (false :: p) t1 /\ node_at m (e_sub e) (true :: p) t2 /\ shuffled (tp te) t1 /\ shuffled (ts te) t2 /\
    kept fl m (e_prime e) /\ kept fl m (e_sub e) /\ val (e_param e) = tw te.
Lemma dec_held fl (m : mgr) i p tes t' js : Wf m -> kept fl m i -> node_at m i p t' -> shuffled (TDec tes) t' -> deterministic (TDec tes) -> tes <> [] -> Forall2 (elem_held fl m p) js tes ->
  new_dec m p fl (map e_prime js) (map e_sub js) (map e_param js) = Ok (i, m).
Proof.
  intros W K A S D NE F. pose proof (lk_det _ _ (shuffled_like _ _ S) D) as D1. apply shuffled_dec_inv in S as (us & us' & -> & F1 & PM1).
  destruct (dec_at m i p us' W A) as (nd & es & E & B & A1 & la & lb & SU). destruct (kept_at _ _ _ _ _ K A) as (n1 & E1 & L & FL & V). rewrite E in E1. injection E1 as <-.
  destruct (kept_dec_inv _ _ _ _ _ E B K) as [So Kc]. assert (js <> []) as NJ by (intros ->; inversion F; congruence).
  unfold new_dec. rewrite (mk_elems_ok js [] ltac:(destruct js; [congruence|discriminate]) : mk_elems (map e_param js) 0 (map e_prime js) (map e_sub js) = Ok js). cbn [bind]. f_equal. eapply unique_held; eauto. unfold node_eq. cbn [n_body n_flag].
  rewrite B, FL, N.eqb_refl. cbn [andb]. apply (elems_eq_same val HP).
  apply all_nodes_dec in D as [_ D], D1 as [D1 _]. rewrite Forall_forall in D.
  pose proof (det_primes val m p la lb es us' W SU A1 D1) as ND1.
  assert (forall e j te u, In te tes -> sh te u -> elem_held fl m p j te -> In e es -> elem_at val m p e u -> elem_same val j e) as KK.
  { intros e j te u Hte (X1 & X2 & X3) (t1 & t2 & N1 & N2 & S1 & S2 & K1 & K2 & PV) He (U1 & U2 & U3). destruct (D te Hte) as [Da Db], (Kc e He).
    split; [eapply same_shuffled; eauto|]. split; [eapply same_shuffled; eauto|]. congruence. }
  assert (forall j, In j js -> exists e, In e es /\ elem_same val j e) as M1.
  { intros j Hj. destruct (Forall2_in_l _ _ _ _ F Hj) as (te & Hte & X). destruct (Forall2_in_l _ _ _ _ F1 Hte) as (u & Hu & Y). apply (Permutation_in _ PM1) in Hu.
    destruct (Forall2_in_r _ _ _ _ A1 Hu) as (e & He & Ae). exists e. split; auto. eapply KK; eauto. }
  assert (forall e, In e es -> exists j, In j js /\ elem_same val j e) as M2.
  { intros e He. destruct (Forall2_in_l _ _ _ _ A1 He) as (u & Hu & Ae). apply (Permutation_in _ (Permutation_sym PM1)) in Hu.
    destruct (Forall2_in_r _ _ _ _ F1 Hu) as (te & Hte & X). destruct (Forall2_in_r _ _ _ _ F Hte) as (j & Hj & Y). exists j. split; auto. eapply KK; eauto. }
  assert (NoDup (map e_prime js)) as ND2.
  { apply (NoDup_incl_NoDup ND1).
    - rewrite !map_length, (F2_length _ _ _ F), (F2_length _ _ _ F1), (Permutation_length PM1), <- (F2_length _ _ _ A1). auto.
    - intros x Hx. apply in_map_iff in Hx as (e & <- & He). destruct (M2 e He) as (j & Hj & Q & _). rewrite <- Q. apply in_map; auto. }
  apply sorted_match; auto using sort_sorted.
  - intros e e' (Q & _). auto.
  - eapply Permutation_NoDup; [|exact ND2]. apply Permutation_map, Permutation_sym, sort_elems_perm.
  - intros j Hj. apply M1. eapply Permutation_in; [apply sort_elems_perm|exact Hj].
  - intros e He. destruct (M2 e He) as (j & Hj & Q). exists j. split; auto. eapply Permutation_in; [apply Permutation_sym, sort_elems_perm|exact Hj].
Qed.
(** Nothing is lifted if everything is where it belongs. *)
Lemma norm_here gt p fl (m : mgr) i tm : vt_of (m_heap m) i = Some p -> normalize_with gt (Some p) fl i tm m = Ok (i, tm, m).
Proof.
  unfold normalize_with, vt_of. destruct (nth_error (m_heap m) i) as [nd|] eqn:E; [|discriminate]. simpl. intros Q. injection Q as <-.
  cbn [norm_loop]. rewrite E. cbn [get bind opath_eqb]. rewrite path_eqb_refl. reflexivity.
Qed.
Lemma conform_here gt l r fl (m : mgr) js : Forall (fun e : elem P => vt_of (m_heap m) (e_prime e) = Some l /\ vt_of (m_heap m) (e_sub e) = Some r) js -> forall tm,
  conform_loop gt (Some l) (Some r) fl (map e_prime js) (map e_sub js) tm m = Ok (map e_prime js, map e_sub js, m).
Proof.
  induction 1 as [|e js [A B] F IH]; intros tm; [reflexivity|]. cbn [map conform_loop]. rewrite (norm_here _ _ _ _ _ _ A). cbn [bind].
  rewrite (norm_here _ _ _ _ _ _ B). cbn [bind]. rewrite IH. reflexivity.
Qed.
Lemma conf_held fl (m : mgr) i p tes t' js : Wf m -> kept fl m i -> node_at m i p t' -> shuffled (TDec tes) t' -> deterministic (TDec tes) -> tes <> [] -> Forall2 (elem_held fl m p) js tes ->
  GetConformedPsddDecisionNode m (map e_prime js) (map e_sub js) (map e_param js) fl = Ok (i, m).
Proof.
  intros W K A S D NE F. assert (exists la lb, subtree (m_vt m) p = Some (VNode la lb)) as (la & lb & SU).
  { pose proof S as S'. apply shuffled_dec_inv in S' as (us & us' & -> & _). destruct (dec_at m i p us' W A) as (_ & _ & _ & _ & _ & X). exact X. }
  assert (Forall (fun e : elem P => vt_of (m_heap m) (e_prime e) = Some (false :: p) /\ vt_of (m_heap m) (e_sub e) = Some (true :: p)) js) as FV.
  { apply Forall_forall. intros j Hj. destruct (Forall2_in_l _ _ _ _ F Hj) as (te & _ & t1 & t2 & [V1 _] & [V2 _] & _). auto. }
  pose proof (dec_held fl m i p tes t' js W K A S D NE F) as ED.
  unfold GetConformedPsddDecisionNode, conformed_with. destruct js as [|j js]; [inversion F; congruence|]. inversion FV as [|? ? [V1 V2] _]; subst.
  cbn [map hd_error get bind]. rewrite V1. cbn [get bind]. rewrite V2. cbn [get bind]. rewrite (vlca_split [] [] p : vlca (false :: p) (true :: p) = p). unfold vkid. rewrite SU.
  change (e_prime j :: map e_prime js) with (map e_prime (j :: js)). change (e_sub j :: map e_sub js) with (map e_sub (j :: js)).
  rewrite (conform_here _ _ _ _ _ _ FV). cbn [bind]. exact ED.
Qed.

(** ** Loading a PSDD that is held already *)
Lemma counterpart (hs : heap) sroot root q fl (m : mgr) i p t t' : heap_ok sroot hs -> Wf m -> Rep val hs root t -> vt_of hs root = Some q -> node_at m i p t' -> shuffled t t' -> kept fl m i ->
  forall c, reach hs root c -> exists w j tc tc', vt_of hs c = Some (w ++ q) /\ Rep val hs c tc /\ node_at m j (w ++ p) tc' /\ shuffled tc tc' /\ kept fl m j.
Proof.
  intros HO W R V A S K c H. change q with ([] ++ q) in V. change p with ([] ++ p) in A. revert R V A S K. generalize (@nil bool) as w0. intros w0. revert w0 t i t'.
  induction H as [k|k nd c' c E C H IH]; intros w0 t i t' R V A S K.
  - exists w0, i, t, t'. auto.
  - apply in_children in C as (es & e & B & He & C). inversion R as [|? ? ? ? ? E0 B0|? n0 es0 tes E0 B0 F]; subst; [congruence|congruence|]. rewrite E in E0. injection E0 as <-. rewrite B in B0. injection B0 as <-.
    destruct (Forall2_in_l _ _ _ _ F He) as (te & Hte & R1 & R2 & _). apply shuffled_dec_inv in S as (us & us' & -> & F1 & PM).
    destruct (Forall2_in_l _ _ _ _ F1 Hte) as (u & Hu & X1 & X2 & _). apply (Permutation_in _ PM) in Hu.
    destruct (dec_at m i _ us' W A) as (n1 & es1 & E1 & B1 & A1 & _). destruct (Forall2_in_r _ _ _ _ A1 Hu) as (e1 & He1 & U1 & U2 & _).
    destruct (kept_dec_inv _ _ _ _ _ E1 B1 K) as [_ Kc]. destruct (Kc e1 He1) as [K1 K2].
    pose proof (HO _ _ E) as NO. unfold node_ok in NO. rewrite B in NO. destruct NO as (_ & _ & FE). rewrite Forall_forall in FE. destruct (FE e He) as (_ & _ & V1 & V2).
    unfold vt_of in V. rewrite E in V. simpl in V. injection V as V. rewrite V in V1, V2.
    destruct C as [-> | ->]; [apply (IH (false :: w0) (tp te) (e_prime e1) (tp u))|apply (IH (true :: w0) (ts te) (e_sub e1) (ts u))]; auto.
Qed.
Theorem load_held sroot (hs : heap) root q fl (m : mgr) ud i p t t' : heap_ok sroot hs -> Wf m -> Rep val hs root t -> vt_of hs root = Some q -> deterministic t ->
  node_at m i p t' -> shuffled t t' -> kept fl m i ->
  exists ud', LoadPsddNode hs ud (Some p) root fl m = Ok (i, ud', m).
Proof.
  intros HO W HR Hq D A S K. destruct (serialize_root hs sroot root HO) as [L SO]. { eapply vt_of_lt; eauto. }
  pose proof (counterpart hs sroot root q fl m i p t t' HO W HR Hq A S K) as CP.
  unfold LoadPsddNode. rewrite (so_eq _ _ _ SO). cbn [bind].
  set (im := fun (ud : udata) c => exists w j tc tc', vt_of hs c = Some (w ++ q) /\ Rep val hs c tc /\ node_at m j (w ++ p) tc' /\ shuffled tc tc' /\ kept fl m j /\ ud c = Some j).
  destruct (bottom_up (load_step hs fl) (fun L2 st => snd st = m /\ forall c, In c L2 -> im (fst st) c) L (ud, m)) as ([ud1 m1] & E1 & X1 & IM).
  - intros L1 k L2 [ud0 m0] EL (X0 & IM0). simpl in X0, IM0. subst m0.
    assert (reach hs root k) as RK by (apply (so_in _ _ _ SO); rewrite EL; apply in_elt).
    destruct (CP k RK) as (w & j & tc & tc' & Vc & Rc & Aj & Sj & Kj). pose proof (reach_all_nodes _ _ _ _ _ _ _ RK HR Rc D) as Dc.
    pose proof (NoDup_app_nin L1 L2 k ltac:(rewrite <- EL; apply (so_nodup _ _ _ SO))) as NI.
    assert (load_step hs fl (ud0, m) k = Ok (set_ud ud0 k (Some j), m)) as ES.
    { unfold load_step. inversion Rc as [? nd z E B|? nd v pt pf E B|? nd es tes E B F]; subst; rewrite E; cbn [get bind]; rewrite B.
      - inversion Sj; subst. rewrite (lit_held fl m j _ z W Kj Aj). reflexivity.
      - inversion Sj; subst. rewrite (top_held fl m j _ v _ _ pt pf W Kj Aj eq_refl). reflexivity.
      - assert (exists js, mapM (fun e => get (ud0 (e_prime e))) es = Ok (map e_prime js) /\ mapM (fun e => get (ud0 (e_sub e))) es = Ok (map e_sub js) /\ map e_param js = map e_param es /\
          Forall2 (elem_held fl m (w ++ p)) js tes) as (js & M1 & M2 & M3 & FH).
        { assert (forall c, In c (children nd) -> im ud0 c) as IMC by (intros c Hc; apply IM0; eapply (so_topo _ _ _ SO); eauto).
          assert (forall e, In e es -> im ud0 (e_prime e) /\ im ud0 (e_sub e)) as IME by (intros e He; split; apply IMC, in_children; eauto 10).
          pose proof (HO _ _ E) as NO. unfold node_ok in NO. rewrite B in NO. destruct NO as (_ & _ & FE). unfold vt_of in Vc. rewrite E in Vc. simpl in Vc. injection Vc as Vc. rewrite Vc in FE.
          clear - F IME FE. induction F as [|e te es tes (R1 & R2 & R3) F IH]; [exists []; repeat split; constructor|]. inversion FE as [|? ? (_ & _ & V1 & V2) FE']; subst.
          destruct IH as (js & M1 & M2 & M3 & FH); auto. { intros; apply IME; right; auto. }
          destruct (IME e (or_introl eq_refl)) as [(w1 & j1 & u1 & u1' & Y1 & Y2 & Y3 & Y4 & Y5 & Y6) (w2 & j2 & u2 & u2' & Z1 & Z2 & Z3 & Z4 & Z5 & Z6)].
          assert (w1 = false :: w) as -> by (eapply (app_inv_tail q); simpl; congruence). assert (w2 = true :: w) as -> by (eapply (app_inv_tail q); simpl; congruence).
          rewrite (Rep_fun _ _ _ _ _ Y2 R1) in Y4. rewrite (Rep_fun _ _ _ _ _ Z2 R2) in Z4.
          exists (MkE j1 j2 (e_param e) :: js). cbn [mapM map e_prime e_sub e_param]. rewrite Y6, Z6. cbn [get bind]. rewrite M1, M2. cbn [bind]. do 2 (split; auto). split; [congruence|].
          constructor; auto. exists u1', u2'. auto 10. }
        rewrite M1. cbn [bind]. rewrite M2. cbn [bind]. rewrite <- M3.
        rewrite (conf_held fl m j (w ++ p) tes tc' js); auto. pose proof (HO _ _ E) as NO. unfold node_ok in NO. rewrite B in NO. destruct NO as (NE & _). intros ->. inversion F. congruence. }
    exists (set_ud ud0 k (Some j), m). split; auto. simpl. split; auto. intros c Hc. destruct (Nat.eq_dec c k) as [->|NE].
    + exists w, j, tc, tc'. unfold set_ud. rewrite Nat.eqb_refl. auto 10.
    + destruct Hc as [Hc|Hc]; [congruence|]. destruct (IM0 c Hc) as (w1 & j1 & t1 & t1' & Y1 & Y2 & Y3 & Y4 & Y5 & Y6). exists w1, j1, t1, t1'. unfold set_ud. rewrite (proj2 (Nat.eqb_neq _ _) NE). auto 10.
  - simpl. split; auto. intros c [].
  - simpl in X1, IM. subst m1. rewrite E1. cbn [bind].
    assert (In root L) as HRL by (apply (so_in _ _ _ SO); constructor).
    destruct (IM root HRL) as (w & j & tc & tc' & Y1 & Y2 & Y3 & Y4 & Y5 & Y6). rewrite Y1 in Hq. injection Hq as Hq.
    assert (w = []) as -> by (apply (app_inv_tail q); auto). simpl in Y3. rewrite (Rep_fun _ _ _ _ _ Y2 HR) in Y4.
    rewrite (same_shuffled fl m W t p j i tc' t') in Y6 by auto. rewrite Y6. cbn [get bind]. unfold NormalizePsddNode. rewrite (norm_here _ _ _ _ _ _ (proj1 A)). cbn [bind fst].
    eexists. reflexivity.
Qed.
End One.
