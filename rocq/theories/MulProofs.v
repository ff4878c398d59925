(** Multiply (C27-C29). *)
From Coq Require Import Reals Lra.
From Verif Require Import Base Param Vtree VtreeProofs Spec SpecProofs Heap Manager HeapProofs SerProofs RepProofs LoadProofs.

Lemma subtree_nodup d : NoDup (leaves d) -> forall p s, subtree d p = Some s -> NoDup (leaves s).
Proof.
  intros ND p. induction p as [|b p IH]; intros s H; simpl in H; [congruence|].
  destruct (subtree d p) as [[v|l r]|] eqn:E; try discriminate. specialize (IH _ eq_refl). simpl in IH.
  apply NoDup_app_inv in IH as (A & B & _). destruct b; injection H as <-; auto.
Qed.
(** ** A conforming tree has a model *)
Section Sat.
Local Open Scope R_scope.
Definition combine_inst (vs : list N) (x y : inst) : inst := fun v => if NmemB v vs then x v else y v.
Lemma combine_in vs x y v : In v vs -> combine_inst vs x y v = x v.
Proof. intros H. unfold combine_inst. apply NmemB_In in H. rewrite H. reflexivity. Qed.
Lemma combine_out vs x y v : ~ In v vs -> combine_inst vs x y v = y v.
Proof. intros H. unfold combine_inst. destruct (NmemB v vs) eqn:E; auto. apply NmemB_In in E. contradiction. Qed.
Lemma base_sat vt : NoDup (leaves vt) -> forall t, conforms vt t -> exists x, base t x = true.
Proof.
  induction vt as [v|l IHl r IHr]; intros ND t C.
  - destruct t as [z|w a b|es]; simpl in C; try contradiction.
    + exists (fun _ => Z.ltb 0 z). simpl. unfold lit_sat. apply eqb_reflx.
    + exists (fun _ => true). reflexivity.
  - destruct t as [z|w a b|es]; try contradiction. apply conforms_dec in C as [NE F].
    destruct es as [|e es]; [congruence|]. inversion F as [|? ? [C1 C2] F']; subst. simpl in ND.
    apply NoDup_app_inv in ND as (ND1 & ND2 & DJ).
    destruct (IHl ND1 _ C1) as [x Hx]. destruct (IHr ND2 _ C2) as [y Hy].
    exists (combine_inst (leaves l) x y). rewrite base_dec. simpl.
    rewrite (base_depends l (tp e) C1 _ x), (base_depends r (ts e) C2 _ y), Hx, Hy; auto.
    + intros v Hv. apply combine_out. intros G. eapply DJ; eauto.
    + intros v Hv. apply combine_in; auto.
Qed.

(** ** Products of element lists *)
Definition disj (e1 e2 : ptree * ptree * R) : Prop := forall x, base (tp e1) x && base (tp e2) x = false.
Notation telem := (ptree * ptree * R)%type.
Definition pbase (ab : telem * telem) x := base (tp (fst ab)) x && base (tp (snd ab)) x.
Definition pdisj (a b : telem * telem) : Prop := forall x, pbase a x && pbase b x = false.
Lemma FOP_app {A} (R : A -> A -> Prop) l1 l2 : ForallOrdPairs R l1 -> ForallOrdPairs R l2 -> (forall a b, In a l1 -> In b l2 -> R a b) ->
  ForallOrdPairs R (l1 ++ l2).
Proof.
  induction l1 as [|a l1 IH]; intros F1 F2 C; auto. inversion F1; subst. simpl. constructor.
  - apply Forall_app. split; auto. apply Forall_forall. intros b Hb. apply C; simpl; auto.
  - apply IH; auto. intros; apply C; simpl; auto.
Qed.
Lemma FOP_prod la lb : ForallOrdPairs disj la -> ForallOrdPairs disj lb -> ForallOrdPairs pdisj (list_prod la lb).
Proof.
  intros Fa Fb. induction Fa as [|a la Ha Fa IH]; [constructor|]. simpl. apply FOP_app; auto.
  - clear - Fb. induction Fb as [|b lb Hb Fb IH]; [constructor|]. simpl. constructor; auto.
    apply Forall_forall. intros [a' b'] H. apply in_map_iff in H as (c & E & Hc). injection E as <- <-.
    rewrite Forall_forall in Hb. intros x. unfold pbase; simpl. specialize (Hb c Hc x). 
    destruct (base (tp a) x), (base (tp b) x), (base (tp c) x); simpl in *; auto.
  - intros [a1 b1] [a2 b2] H1 H2. apply in_map_iff in H1 as (c & E & Hc). injection E as <- <-. apply in_prod_iff in H2 as [H2 _].
    rewrite Forall_forall in Ha. specialize (Ha a2 H2). intros x. unfold pbase; simpl. specialize (Ha x).
    destruct (base (tp a) x), (base (tp a2) x); simpl in *; auto; try discriminate. rewrite andb_false_r. auto.
Qed.
Lemma Forall2_list_prod {A B C D} (R : A -> C -> Prop) (S : B -> D -> Prop) la lc lb ld : Forall2 R la lc -> Forall2 S lb ld ->
  Forall2 (fun ab cd => R (fst ab) (fst cd) /\ S (snd ab) (snd cd)) (list_prod la lb) (list_prod lc ld).
Proof.
  intros F1 F2. induction F1 as [|a c la lc H F1 IH]; [constructor|]. simpl. apply Forall2_app; auto.
  clear - F2 H. induction F2; simpl; constructor; auto.
Qed.
Lemma existsb_prod {A B} (f : A -> bool) (g : B -> bool) la lb : existsb f la && existsb g lb = existsb (fun ab => f (fst ab) && g (snd ab)) (list_prod la lb).
Proof.
  induction la as [|a la IH]; simpl; auto. rewrite existsb_app, <- IH.
  assert (existsb (fun ab => f (fst ab) && g (snd ab)) (map (fun y => (a, y)) lb) = f a && existsb g lb) as ->.
  { clear. induction lb as [|b lb IH]; simpl; [rewrite andb_false_r; auto|]. rewrite IH. destruct (f a), (g b); auto. }
  destruct (f a), (existsb f la), (existsb g lb); auto.
Qed.
End Sat.

Local Open Scope R_scope.
Notation telem := (ptree * ptree * R)%type.
Definition meets (t u : ptree) : Prop := exists x, base t x && base u x = true.
(** Product of two trees: r * z = a * b, with r normalized. *)
Record prod_sem (ta tb t : ptree) (z : R) : Prop := {
  ps_z : 0 < z;
  ps_weight : forall x, weight t x * z = weight ta x * weight tb x;
  ps_base : forall x, base t x = base ta x && base tb x;
  ps_pos : positive t;
  ps_norm : normalized t;
  ps_det : deterministic ta -> deterministic tb -> deterministic t;
}.
(** The elements of the product are the products of the pairs of elements that meet, in any order. *)
Inductive smul : ptree -> ptree -> ptree -> Prop :=
| sm_ll l : smul (TLit l) (TLit l) (TLit l)
| sm_lt l v a b : smul (TLit l) (TTop v a b) (TLit l)
| sm_tl l v a b : smul (TTop v a b) (TLit l) (TLit l)
| sm_tt v a b c d a' b' : smul (TTop v a b) (TTop v c d) (TTop v a' b')
| sm_dd es fs gs :
    (forall g, In g gs -> exists e f z1 z2, In e es /\ In f fs /\ prod_sem (tp e) (tp f) (tp g) z1 /\ prod_sem (ts e) (ts f) (ts g) z2 /\
       smul (tp e) (tp f) (tp g) /\ smul (ts e) (ts f) (ts g)) ->
    (forall e f, In e es -> In f fs -> meets (tp e) (tp f) -> meets (ts e) (ts f) ->
       exists g z1 z2, In g gs /\ prod_sem (tp e) (tp f) (tp g) z1 /\ prod_sem (ts e) (ts f) (ts g) z2 /\
       smul (tp e) (tp f) (tp g) /\ smul (ts e) (ts f) (ts g)) ->
    smul (TDec es) (TDec fs) (TDec gs).
Record prod_of (ta tb t : ptree) (z : R) : Prop := {
  po_z : 0 < z;
  po_weight : forall x, weight t x * z = weight ta x * weight tb x;
  po_base : forall x, base t x = base ta x && base tb x;
  po_pos : positive t;
  po_norm : normalized t;
  po_det : deterministic ta -> deterministic tb -> deterministic t;
  po_str : smul ta tb t;
}.
Lemma prod_of_sem ta tb t z : prod_of ta tb t z -> prod_sem ta tb t z.
Proof. intros []. split; auto. Qed.
(** [g] is the product of the elements [fst ab] and [snd ab], without its parameter *)
Definition eprod (ab : telem * telem) (g : telem) : Prop :=
  exists z1 z2, prod_of (tp (fst ab)) (tp (snd ab)) (tp g) z1 /\ prod_of (ts (fst ab)) (ts (snd ab)) (ts g) z2.
Definition pairs_of (tpairs : list (telem * telem)) (gs : list telem) : Prop :=
  (forall g, In g gs -> exists ab, In ab tpairs /\ eprod ab g) /\
  (forall ab, In ab tpairs -> meets (tp (fst ab)) (tp (snd ab)) -> meets (ts (fst ab)) (ts (snd ab)) -> exists g, In g gs /\ eprod ab g).
Lemma pairs_smul es fs gs : pairs_of (list_prod es fs) gs -> smul (TDec es) (TDec fs) (TDec gs).
Proof.
  intros [A B]. constructor.
  - intros g Hg. destruct (A g Hg) as ([e f] & H & z1 & z2 & P1 & P2). apply in_prod_iff in H as [H1 H2]. simpl in P1, P2.
    exists e, f, z1, z2. do 2 (split; auto). do 2 (split; [apply prod_of_sem; auto|]). split; [apply P1|apply P2].
  - intros e f He Hf M1 M2. destruct (B (e, f)) as (g & Hg & z1 & z2 & P1 & P2); auto. { apply in_prod_iff; auto. }
    simpl in P1, P2. exists g, z1, z2. split; auto. do 2 (split; [apply prod_of_sem; auto|]). split; [apply P1|apply P2].
Qed.
Lemma pairs_perm tpairs gs gs' z : Permutation (map (fun te : telem => (tp te, ts te, tw te / z)) gs) gs' -> pairs_of tpairs gs -> pairs_of tpairs gs'.
Proof.
  intros PM [A B]. split.
  - intros g Hg. apply (Permutation_in g (Permutation_sym PM)) in Hg. apply in_map_iff in Hg as (g0 & <- & Hg0). exact (A g0 Hg0).
  - intros ab Hab M1 M2. destruct (B ab Hab M1 M2) as (g & Hg & E). exists (tp g, ts g, tw g / z). split; auto.
    apply (Permutation_in _ PM), in_map_iff. eauto.
Qed.
(** No two parameters one of which is zero are combined by a product: a literal meets a non-zero parameter of a top node, the
    parameters of two top nodes are not zero, and so are those of two elements whose primes meet and whose subs meet. *)
Fixpoint safe (t u : ptree) : Prop :=
  match t, u with
  | TLit l, TTop _ a b => 0 < (if Z.ltb 0 l then a else b)
  | TTop _ a b, TLit l => 0 < (if Z.ltb 0 l then a else b)
  | TTop _ a b, TTop _ a' b' => (0 < a /\ 0 < b) /\ (0 < a' /\ 0 < b')
  | TDec es, TDec fs =>
      fold_right (fun e acc => (forall f, In f fs ->
        safe (fst (fst e)) (tp f) /\
        (meets (fst (fst e)) (tp f) -> safe (snd (fst e)) (ts f) /\ (meets (snd (fst e)) (ts f) -> 0 < snd e /\ 0 < tw f))) /\ acc) True es
  | _, _ => True
  end.
Definition esafe (e f : telem) : Prop :=
  safe (tp e) (tp f) /\ (meets (tp e) (tp f) -> safe (ts e) (ts f) /\ (meets (ts e) (ts f) -> 0 < tw e /\ 0 < tw f)).
Lemma safe_dec es fs : safe (TDec es) (TDec fs) <-> Forall (fun e => Forall (esafe e) fs) es.
Proof.
  cbn [safe]. induction es as [|e es IH]; cbn [fold_right]; [split; auto|]. rewrite IH, Forall_cons_iff, (Forall_forall (esafe e)). reflexivity.
Qed.
Lemma positive_lit l : positive (TLit l).
Proof. unfold positive; simpl; auto. Qed.
Lemma normalized_lit l : normalized (TLit l).
Proof. unfold normalized; simpl; auto. Qed.
Lemma positive_safe t : positive t -> forall u, positive u -> safe t u.
Proof.
  induction t as [l|v a b|es IH] using ptree_ind2; intros Ht u Hu.
  - destruct u as [|v' a b|]; cbn; auto. destruct (all_nodes_root _ _ Hu). destruct (Z.ltb 0 l); auto.
  - destruct (all_nodes_root _ _ Ht). destruct u as [l|v' a' b'|]; cbn; auto.
    + destruct (Z.ltb 0 l); auto.
    + destruct (all_nodes_root _ _ Hu). auto.
  - destruct u as [|v' a' b'|fs]; cbn -[safe]; try exact I. apply safe_dec.
    apply all_nodes_dec in Ht as [T1 T2], Hu as [U1 U2]. rewrite Forall_forall in *. intros e He. apply Forall_forall. intros f Hf.
    destruct (IH e He) as [I1 I2], (T2 e He), (U2 f Hf). split; [apply I1; auto|]. intros _. split; [apply I2; auto|]. intros _. split; auto.
Qed.
Definition wterm (x : inst) (te : telem) : R := weight (tp te) x * weight (ts te) x * tw te.
Definition bterm (x : inst) (te : telem) : bool := base (tp te) x && base (ts te) x.
Definition epos (te : telem) : Prop := 0 < tw te /\ positive (tp te) /\ positive (ts te).
Definition edet (te : telem) : Prop := deterministic (tp te) /\ deterministic (ts te).
Lemma flag_of_ext {P : pops} fl (m m' : mgr P) i f : mext fl m m' -> flag_of (m_heap m) i = Some f -> flag_of (m_heap m') i = Some f.
Proof.
  intros [_ (l & -> & _) _ _] H. unfold flag_of in *.
  destruct (nth_error (m_heap m) i) as [nd|] eqn:E'; [|discriminate]. rewrite nth_error_app1; [rewrite E'; auto|].
  apply nth_error_Some. congruence.
Qed.

(** Elements with nodes at the children of p *)
Definition elem_at {P : pops} (val : P -> R) (m : mgr P) (p : path) (e : elem P) (te : telem) : Prop :=
  node_at val m (e_prime e) (false :: p) (tp te) /\ node_at val m (e_sub e) (true :: p) (ts te) /\ tw te = val (e_param e).
Lemma lifted_direct {P : pops} (val : P -> R) (m : mgr P) p : forall es tes, Forall2 (elem_at val m p) es tes -> lifted val m p es tes tes.
Proof.
  intros es tes F. induction F as [|e te es tes (A & B & C) F IH]; [constructor|].
  assert (te = lift_elem (m_vt m) p [] [] te) as E by (unfold lift_elem; simpl; destruct te as [[? ?] ?]; reflexivity).
  rewrite E at 2. constructor; auto. split; [|split]; auto.
Qed.
(** The proofs are about any reading [Out] of the nodes that are returned and any invariant [Good] of the manager for which
    creating nodes works; the arguments are read exactly.  [Out] is [node_at] below, and a reading up to == in ApproxMul.v. *)
Section MulG.
Context {P : pops} (val : P -> R) (HP : parith P val).
Notation heap := (heap P). Notation mgr := (mgr P). Notation node := (node P).
Notation node_at := (node_at val). Notation Rep := (Rep val). Notation elem_at := (elem_at val).
Context (Good : N -> mgr -> Prop) (Out : mgr -> nat -> path -> ptree -> Prop).
Context (good_wf : forall fl m, Good fl m -> Wf m).
Context (out_ext : forall fl m m' i p t, mext fl m m' -> Out m i p t -> Out m' i p t).
Context (out_conforms : forall m i p t, Wf m -> Out m i p t -> exists s, subtree (m_vt m) p = Some s /\ conforms s t).
Definition elem_out (m : mgr) (p : path) (e : elem P) (te : telem) : Prop :=
  Out m (e_prime e) (false :: p) (tp te) /\ Out m (e_sub e) (true :: p) (ts te) /\ tw te = val (e_param e).
Context (out_lit : forall fl m l p, Good fl m -> subtree (m_vt m) p = Some (Leaf (lit_var l)) ->
  exists i m', GetPsddLiteralNode m l fl = Ok (i, m') /\ Good fl m' /\ mext fl m m' /\ In i (m_live m') /\
    Out m' i p (TLit l) /\ flag_of (m_heap m') i = Some fl).
Context (out_top : forall fl m v pt pf p, Good fl m -> subtree (m_vt m) p = Some (Leaf v) -> val pt + val pf = 1 -> 0 < val pt -> 0 < val pf ->
  exists i m' nd pt' pf', GetPsddTopNode m v fl pt pf = Ok (i, m') /\ Good fl m' /\ mext fl m m' /\ In i (m_live m') /\
    Out m' i p (TTop v (val pt) (val pf)) /\ flag_of (m_heap m') i = Some fl /\
    nth_error (m_heap m') i = Some nd /\ n_body nd = BTop v pt' pf' /\ peq pt' pzero = false /\ peq pf' pzero = false).
Context (out_dec : forall fl m p l r es tes, Good fl m -> subtree (m_vt m) p = Some (VNode l r) -> es <> [] -> Forall2 (elem_out m p) es tes ->
  exists i m' tes', GetConformedPsddDecisionNode m (map e_prime es) (map e_sub es) (map e_param es) fl = Ok (i, m') /\
    Good fl m' /\ mext fl m m' /\ In i (m_live m') /\ Permutation tes tes' /\ Out m' i p (TDec tes') /\ flag_of (m_heap m') i = Some fl).
Context (peq_zero_pos : forall a : P, 0 < val a -> peq a pzero = false).

Definition mul_okG fl (m : mgr) (p : path) (ta tb : ptree) (r : mres) : Prop :=
  match fst r with
  | None => val (snd r) = 0 /\ forall x, base ta x && base tb x = false
  | Some i => exists t, Out m i p t /\ prod_of ta tb t (val (snd r)) /\ flag_of (m_heap m) i = Some fl /\ In i (m_live m)
  end.
Lemma mul_okG_ext fl (m m' : mgr) p ta tb r : mext fl m m' -> mul_okG fl m p ta tb r -> mul_okG fl m' p ta tb r.
Proof.
  intros X. unfold mul_okG. destruct (fst r) as [i|]; auto. intros (t & A & B & C & D). exists t. split; [eapply out_ext; eauto|].
  split; auto. split; [eapply flag_of_ext; eauto|]. apply (me_live _ _ _ X); auto.
Qed.
Definition cache_ok' fl (m : mgr) (c : mcache) : Prop :=
  forall pos a b r, In ((pos, a, b), r) c -> exists p ta tb, node_at m a p ta /\ node_at m b p tb /\ mul_okG fl m p ta tb r.
Lemma cache_ok_ext fl (m m' : mgr) c : mext fl m m' -> cache_ok' fl m c -> cache_ok' fl m' c.
Proof.
  intros X H pos a b r Hr. destruct (H _ _ _ _ Hr) as (p & ta & tb & A & B & C). exists p, ta, tb.
  split; [eapply node_at_ext; eauto|]. split; [eapply node_at_ext; eauto|]. eapply mul_okG_ext; eauto.
Qed.
Lemma alookup_in (k : nat * nat * nat) (c : @mcache P) (r : @mres P) : alookup key_eqb k c = Some r -> In (k, r) c.
Proof.
  induction c as [|[k' r'] c IH]; simpl; [discriminate|]. destruct (key_eqb k k') eqn:E.
  - intros [= ->]. left. destruct k as [[a b] d], k' as [[a' b'] d']. unfold key_eqb in E.
    apply andb_true_iff in E as [E E3]. apply andb_true_iff in E as [E1 E2].
    apply Nat.eqb_eq in E1, E2, E3. congruence.
  - auto.
Qed.
Lemma node_at_fun (m : mgr) i p t p' t' : node_at m i p t -> node_at m i p' t' -> p = p' /\ t = t'.
Proof. intros [A B] [C D]. split; [congruence|eapply Rep_fun; eauto]. Qed.

(** What the recursive call must do for nodes below the bound n *)
Definition mul_spec fl n (rec : nat -> nat -> mgr * mcache -> res (mres * (mgr * mcache))) : Prop :=
  forall a b m c p ta tb, (a < n)%nat -> Good fl m -> cache_ok' fl m c -> node_at m a p ta -> node_at m b p tb -> safe ta tb ->
  exists r m' c', rec a b (m, c) = Ok (r, (m', c')) /\ Good fl m' /\ mext fl m m' /\ cache_ok' fl m' c' /\ mul_okG fl m' p ta tb r.

Lemma elem_at_ext fl (m m' : mgr) p e te : mext fl m m' -> elem_at m p e te -> elem_at m' p e te.
Proof. intros X (A & B & C). split; [|split]; auto; eapply node_at_ext; eauto. Qed.
Lemma mul_pairs fl n rec p : mul_spec fl n rec -> forall pairs tpairs acc part m c,
  Good fl m -> cache_ok' fl m c ->
  Forall2 (fun ab tab => elem_at m p (fst ab) (fst tab) /\ elem_at m p (snd ab) (snd tab)) pairs tpairs ->
  (forall ab, In ab pairs -> (e_prime (fst ab) < n /\ e_sub (fst ab) < n)%nat) ->
  Forall (fun tab => esafe (fst tab) (snd tab)) tpairs ->
  exists new part' m' c' tnew, foldM (mul_pair rec) pairs (acc, part, (m, c)) = Ok (acc ++ new, part', (m', c')) /\
    Good fl m' /\ mext fl m m' /\ cache_ok' fl m' c' /\ Forall2 (elem_out m' p) new tnew /\
    val part' = val part + rsum tw tnew /\
    (forall x, rsum (wterm x) tnew = rsum (fun ab => wterm x (fst ab) * wterm x (snd ab)) tpairs) /\
    (forall x, existsb (bterm x) tnew = existsb (fun ab => bterm x (fst ab) && bterm x (snd ab)) tpairs) /\
    Forall (fun te => epos te /\ normalized (tp te) /\ normalized (ts te)) tnew /\
    Forall (fun te => exists tab, In tab tpairs /\ forall x, base (tp te) x = pbase tab x) tnew /\
    (ForallOrdPairs pdisj tpairs -> ForallOrdPairs disj tnew) /\
    (Forall (fun tab => edet (fst tab) /\ edet (snd tab)) tpairs -> Forall edet tnew) /\ pairs_of tpairs tnew.
Proof.
  intros HS pairs. induction pairs as [|[a b] pairs IH]; intros tpairs acc part m c I CO F HB HPOS.
  - inversion F; subst. exists [], part, m, c, []. rewrite app_nil_r. split; [reflexivity|]. split; auto. split; [apply mext_refl|].
    split; auto. split; [constructor|]. split; [simpl; lra|]. split; [reflexivity|]. split; [reflexivity|].
    do 4 (split; [constructor|]). split; intros ? [].
  - inversion F as [|? [ta tb] ? tps [(A1 & A2 & A3) (B1 & B2 & B3)] F']; subst. simpl in A1, A2, A3, B1, B2, B3.
    inversion HPOS as [|? ? [Sp Ss] HPOS']; subst. simpl in Sp, Ss.
    destruct (HB (a, b) (or_introl eq_refl)) as [La Lb]. simpl in La, Lb.
    destruct (HS _ _ m c _ _ _ La I CO A1 B1 Sp) as (pr & m1 & c1 & E1 & I1 & X1 & CO1 & M1).
    cbn [foldM]. unfold mul_pair at 1. rewrite E1. cbn [bind].
    assert (forall x, bterm x ta && bterm x tb = (base (tp ta) x && base (tp tb) x) && (base (ts ta) x && base (ts tb) x)) as BR.
    { intros x. unfold bterm. destruct (base (tp ta) x), (base (tp tb) x), (base (ts ta) x), (base (ts tb) x); auto. }
    assert (forall m' , mext fl m m' -> Forall2 (fun ab tab => elem_at m' p (fst ab) (fst tab) /\ elem_at m' p (snd ab) (snd tab)) pairs tps) as FX.
    { intros m' X. eapply Forall2_impl_in; [|exact F']. intros ? ? _ _ [U V]. split; eapply elem_at_ext; eauto. }
    assert (forall ab, In ab pairs -> (e_prime (fst ab) < n /\ e_sub (fst ab) < n)%nat) as HB' by (intros; apply HB; right; auto).
    (* the pair contributes nothing *)
    assert (forall m' c', Good fl m' -> mext fl m m' -> cache_ok' fl m' c' -> ~ (meets (tp ta) (tp tb) /\ meets (ts ta) (ts tb)) ->
      exists new part' m2 c2 tnew, foldM (mul_pair rec) pairs (acc, part, (m', c')) = Ok (acc ++ new, part', (m2, c2)) /\
    Good fl m2 /\ mext fl m m2 /\ cache_ok' fl m2 c2 /\ Forall2 (elem_out m2 p) new tnew /\
    val part' = val part + rsum tw tnew /\
    (forall x, rsum (wterm x) tnew = rsum (fun ab => wterm x (fst ab) * wterm x (snd ab)) ((ta, tb) :: tps)) /\
    (forall x, existsb (bterm x) tnew = existsb (fun ab => bterm x (fst ab) && bterm x (snd ab)) ((ta, tb) :: tps)) /\
    Forall (fun te => epos te /\ normalized (tp te) /\ normalized (ts te)) tnew /\
    Forall (fun te => exists tab, In tab ((ta, tb) :: tps) /\ forall x, base (tp te) x = pbase tab x) tnew /\
    (ForallOrdPairs pdisj ((ta, tb) :: tps) -> ForallOrdPairs disj tnew) /\
    (Forall (fun tab => edet (fst tab) /\ edet (snd tab)) ((ta, tb) :: tps) -> Forall edet tnew) /\ pairs_of ((ta, tb) :: tps) tnew) as SKIP.
    { intros m' c' I' X' CO' NM.
      assert (forall x, bterm x ta && bterm x tb = false) as Z.
      { intros x. rewrite BR. apply andb_false_iff. destruct (base (tp ta) x && base (tp tb) x) eqn:Z1; auto.
        destruct (base (ts ta) x && base (ts tb) x) eqn:Z2; auto. exfalso. apply NM. split; exists x; auto. }
      destruct (IH tps acc part m' c' I' CO' (FX m' X') HB' HPOS')
        as (new & part' & m2 & c2 & tnew & E & I2 & X2 & CO2 & F2 & V2 & W2 & Bs2 & P2 & O2 & D2 & D3 & K2).
      exists new, part', m2, c2, tnew. split; auto. split; auto. split; [eapply mext_trans; eauto|]. split; auto. split; auto. split; auto.
      split; [|split; [|split; [|split; [|split; [|split]]]]]; auto.
      - intros x. simpl. rewrite W2. specialize (Z x). unfold wterm at 3 4.
        assert (weight (tp ta) x * weight (ts ta) x * tw ta * (weight (tp tb) x * weight (ts tb) x * tw tb) = 0) as ->; [|lra].
        rewrite BR in Z.
        destruct (base (tp ta) x) eqn:Z1; [|rewrite (weight_zero_off_base _ _ Z1); lra].
        destruct (base (tp tb) x) eqn:Z2; [|rewrite (weight_zero_off_base _ _ Z2); lra].
        destruct (base (ts ta) x) eqn:Z3; [|rewrite (weight_zero_off_base _ _ Z3); lra].
        destruct (base (ts tb) x) eqn:Z4; [discriminate|rewrite (weight_zero_off_base _ _ Z4); lra].
      - intros x. simpl. rewrite Z. simpl. auto.
      - eapply Forall_impl; [|exact O2]. intros te (tab & Ht & Hb). exists tab. split; [right|]; auto.
      - intros FO. inversion FO; subst. auto.
      - intros FO. inversion FO; subst. auto.
      - destruct K2 as [K3 K4]. split.
        + intros g Hg. destruct (K3 g Hg) as (ab & Hab & EP). exists ab. split; [right|]; auto.
        + intros ab [<-|Hab]; [|apply K4; auto]. simpl. intros M3 M4. exfalso. auto. }
    unfold mul_okG in M1. destruct (fst pr) as [pi|] eqn:Epi.
    2:{ apply (SKIP m1 c1 I1 X1 CO1). intros [[x Hx] _]. rewrite (proj2 M1) in Hx. discriminate. }
    destruct M1 as (tpi & N1 & PO1 & _).
    assert (meets (tp ta) (tp tb)) as MP.
    { destruct (out_conforms _ _ _ _ (good_wf _ _ I1) N1) as (s & Hs & C). destruct (base_sat s) with (t := tpi) as [x Hx]; auto.
      { eapply subtree_nodup; [apply (good_wf _ _ I1)|exact Hs]. }
      exists x. rewrite (po_base _ _ _ _ PO1) in Hx. exact Hx. }
    destruct (Ss MP) as [Ss1 Ss2]. clear Ss.
    destruct (HS _ _ m1 c1 _ _ _ Lb I1 CO1 (node_at_ext _ _ _ _ _ _ _ X1 A2) (node_at_ext _ _ _ _ _ _ _ X1 B2) Ss1) as (sr & m2 & c2 & E2 & I2 & X2 & CO2 & M2).
    rewrite E2. cbn [bind]. unfold mul_okG in M2. 
    pose proof (mext_trans _ _ _ _ X1 X2) as X12. destruct (fst sr) as [si|] eqn:Esi.
    2:{ apply (SKIP m2 c2 I2 X12 CO2). intros [_ [x Hx]]. rewrite (proj2 M2) in Hx. discriminate. }
    destruct M2 as (tsi & N2 & PO2 & _). cbn [bind].
    assert (meets (ts ta) (ts tb)) as MS.
    { destruct (out_conforms _ _ _ _ (good_wf _ _ I2) N2) as (s & Hs & C). destruct (base_sat s) with (t := tsi) as [x Hx]; auto.
      { eapply subtree_nodup; [apply (good_wf _ _ I2)|exact Hs]. }
      exists x. rewrite (po_base _ _ _ _ PO2) in Hx. exact Hx. }
    destruct (Ss2 MS) as [Wa Wb]. clear Ss2.
    set (w := pmul (pmul (pmul (e_param b) (e_param a)) (snd pr)) (snd sr)).
    assert (val w = tw tb * tw ta * val (snd pr) * val (snd sr)) as VW.
    { unfold w. rewrite !(val_mul HP), A3, B3. reflexivity. }
    destruct (IH tps (acc ++ [MkE pi si w]) (padd part w) m2 c2 I2 CO2 (FX m2 X12) HB' HPOS')
        as (new & part' & m3 & c3 & tnew & E & I3 & X3 & CO3 & F3 & V3 & W3 & Bs3 & P3 & O3 & D3 & D4 & K5).
    exists (MkE pi si w :: new), part', m3, c3, ((tpi, tsi, val w) :: tnew).
    rewrite <- app_assoc in E. split; [exact E|]. split; auto. split; [eapply mext_trans; eauto|]. split; auto. split; [|split; [|split; [|split; [|split; [|split; [|split; [|split]]]]]]].
    + constructor; auto. split; [|split]; simpl.
      * eapply out_ext; [exact X3|]. eapply out_ext; [exact X2|]. exact N1.
      * eapply out_ext; [exact X3|]. exact N2.
      * reflexivity.
    + rewrite V3, (val_add HP), rsum_cons. change (tw (tpi, tsi, val w)) with (val w). lra.
    + intros x. simpl. rewrite W3. f_equal. unfold wterm, tp at 1, ts at 1, tw at 1; simpl. rewrite VW.
      pose proof (po_weight _ _ _ _ PO1 x) as Q1. pose proof (po_weight _ _ _ _ PO2 x) as Q2.
      transitivity ((weight tpi x * val (snd pr)) * (weight tsi x * val (snd sr)) * (tw tb * tw ta)); [ring|]. rewrite Q1, Q2. ring.
    + intros x. simpl. rewrite Bs3. f_equal. rewrite BR. unfold bterm, tp at 1, ts at 1; simpl.
      rewrite (po_base _ _ _ _ PO1), (po_base _ _ _ _ PO2). reflexivity.
    + constructor; auto. unfold epos, tp, ts, tw; simpl. split; [split; [|split]|split].
      * rewrite VW. pose proof (po_z _ _ _ _ PO1). pose proof (po_z _ _ _ _ PO2). 
        apply Rmult_lt_0_compat; [apply Rmult_lt_0_compat; [apply Rmult_lt_0_compat|]|]; auto.
      * apply PO1.
      * apply PO2.
      * apply PO1.
      * apply PO2.
    + constructor.
      * exists (ta, tb). split; [left; auto|]. intros x. unfold tp at 1; simpl. rewrite (po_base _ _ _ _ PO1). reflexivity.
      * eapply Forall_impl; [|exact O3]. intros te (tab & Ht & Hb). exists tab. split; [right|]; auto.
    + intros FO. inversion FO as [|? ? FO1 FO2]; subst. constructor; auto. rewrite Forall_forall in O3, FO1. apply Forall_forall.
      intros te Hte. destruct (O3 te Hte) as (tab & Ht & Hb). intros x. rewrite Hb. unfold tp; simpl. rewrite (po_base _ _ _ _ PO1).
      apply (FO1 tab Ht x).
    + intros FO. inversion FO as [|? ? [[FO1 FO2] [FO3 FO4]] FO5]; subst. constructor; auto. split; unfold tp, ts; simpl; [apply PO1|apply PO2]; auto.
    + assert (eprod (ta, tb) (tpi, tsi, val w)) as EP by (exists (val (snd pr)), (val (snd sr)); auto). destruct K5 as [K6 K7]. split.
      * intros g [<-|Hg]; [exists (ta, tb); split; [left|]; auto|]. destruct (K6 g Hg) as (ab & Hab & Eg). exists ab. split; [right|]; auto.
      * intros ab [<-|Hab] M3 M4; [exists (tpi, tsi, val w); split; [left|]; auto|]. destruct (K7 ab Hab M3 M4) as (g & Hg & Eg). exists g. split; [right|]; auto.
Qed.

Lemma cache_pos_ok fl (m : mgr) a p t : Good fl m -> node_at m a p t -> cache_pos m a = Ok (vpos (m_vt m) p).
Proof.
  intros I A. destruct (node_at_conforms val m a p t (good_wf _ _ I) A) as (s & Hs & _). unfold cache_pos. rewrite (proj1 A). cbn [get bind].
  assert (vpos (m_vt m) p < cache_size (m_vt m))%nat as L.
  { exact (vpos_lt _ _ _ Hs). }
  apply Nat.ltb_lt in L. rewrite L. reflexivity.
Qed.
Lemma weight_dec_w es x : weight (TDec es) x = rsum (wterm x) es. Proof. apply weight_dec. Qed.
Lemma base_dec_b es x : base (TDec es) x = existsb (bterm x) es. Proof. apply base_dec. Qed.
Lemma prod_dec ta tb tnew tes2 z fin : 0 < z ->
  (forall x, rsum (wterm x) tnew = rsum (fun ab => wterm x (fst ab) * wterm x (snd ab)) (list_prod ta tb)) ->
  (forall x, existsb (bterm x) tnew = existsb (fun ab => bterm x (fst ab) && bterm x (snd ab)) (list_prod ta tb)) ->
  Forall (fun te => epos te /\ normalized (tp te) /\ normalized (ts te)) tnew ->
  (ForallOrdPairs pdisj (list_prod ta tb) -> ForallOrdPairs disj tnew) ->
  (Forall (fun tab => edet (fst tab) /\ edet (snd tab)) (list_prod ta tb) -> Forall edet tnew) ->
  z = rsum tw tnew -> fin = map (fun te => (tp te, ts te, tw te / z)) tnew -> Permutation fin tes2 -> pairs_of (list_prod ta tb) tnew ->
  prod_of (TDec ta) (TDec tb) (TDec tes2) z.
Proof.
  intros Z W B PS D1 D2 EZ EF PM PP.
  assert (Forall (fun e => 0 < tw e) fin) as F1.
  { subst fin. apply Forall_map. eapply Forall_impl; [|exact PS]. intros te ((H & _) & _). unfold tw at 1; simpl. apply Rdiv_lt_0_compat; auto. }
  split; auto.
  - intros x. rewrite !weight_dec_w, <- (rsum_perm _ _ _ PM), <- rsum_prod, <- W. subst fin. rewrite rsum_map.
    rewrite <- rsum_scal_r. apply rsum_ext. intros te _. unfold wterm, tp, ts, tw; simpl. field. lra.
  - intros x. rewrite !base_dec_b, <- (existsb_perm _ _ _ PM), existsb_prod, <- B. subst fin. clear. induction tnew; simpl; auto. rewrite IHtnew. reflexivity.
  - apply all_nodes_dec. split; (eapply Permutation_Forall; [exact PM|auto]). subst fin. apply Forall_map.
    eapply Forall_impl; [|exact PS]. intros te ((_ & H & H') & _). split; auto.
  - apply all_nodes_dec. split.
    + rewrite <- (rsum_perm _ _ _ PM). subst fin. rewrite rsum_map. unfold tw at 1; simpl.
      transitivity (rsum (fun a => tw a * / z) tnew); [apply rsum_ext; intros; reflexivity|]. rewrite rsum_scal_r, <- EZ. field. lra.
    + eapply Permutation_Forall; [exact PM|]. subst fin. apply Forall_map. eapply Forall_impl; [|exact PS]. intros te (_ & H & H'). split; auto.
  - intros Da Db. apply all_nodes_dec in Da as [Da1 Da2], Db as [Db1 Db2]. apply all_nodes_dec. split.
    + eapply FOP_perm; [|exact PM|]. { intros a b H x. rewrite andb_comm. auto. }
      specialize (D1 (FOP_prod _ _ Da1 Db1)). subst fin. clear - D1. induction D1 as [|te l H F IH]; [constructor|]. simpl. constructor; auto.
      apply Forall_map. exact H.
    + eapply Permutation_Forall; [exact PM|]. subst fin. apply Forall_map. apply D2. apply Forall_forall. intros [u v] H. apply in_prod_iff in H as [H1 H2].
      rewrite Forall_forall in Da2, Db2. split; [apply Da2|apply Db2]; auto.
  - apply pairs_smul. subst fin. exact (pairs_perm _ _ _ _ PM PP).
Qed.
Lemma positive_elems tes : positive (TDec tes) -> Forall epos tes.
Proof.
  intros H. apply all_nodes_dec in H as [H1 H2]. rewrite Forall_forall in *. intros te Hte. split; [apply H1; auto|apply H2; auto].
Qed.
Lemma elem_at_rep fl (m : mgr) i nd es p tes : Good fl m -> nth_error (m_heap m) i = Some nd -> n_body nd = BDec es -> n_vt nd = p ->
  Forall2 (ElemRep val (m_heap m)) es tes -> Forall2 (elem_at m p) es tes /\ (forall e, In e es -> (e_prime e < i /\ e_sub e < i)%nat).
Proof.
  intros I E Eb <- F. pose proof (wf_heap _ (good_wf _ _ I) _ _ E) as NO. unfold node_ok in NO. rewrite Eb in NO. destruct NO as (_ & _ & FE).
  rewrite Forall_forall in FE. split.
  - eapply Forall2_impl_in; [|exact F]. intros e te He _ (A & B & C). destruct (FE e He) as (_ & _ & V1 & V2). split; [split; auto|]. split; [split; auto|auto].
  - intros e He. destruct (FE e He) as (L1 & L2 & _). auto.
Qed.

Theorem mul_with_cache_spec fl : forall n, mul_spec fl n (multiply_with_cache n fl).
Proof.
  induction n as [|n IH]; intros a b m c p ta tb La I CO Na Nb SF; [lia|].
  cbn [multiply_with_cache]. rewrite (cache_pos_ok fl m a p ta I Na). cbn [bind].
  destruct (alookup key_eqb (vpos (m_vt m) p, a, b) c) as [r|] eqn:EL.
  { exists r, m, c. split; auto. split; auto. split; [apply mext_refl|]. split; auto. apply alookup_in in EL.
    destruct (CO _ _ _ _ EL) as (p' & ta' & tb' & Na' & Nb' & M). 
    destruct (node_at_fun _ _ _ _ _ _ Na Na') as [<- <-]. destruct (node_at_fun _ _ _ _ _ _ Nb Nb') as [_ <-]. exact M. }
  clear EL.
  destruct (node_at_conforms val m a p ta (good_wf _ _ I) Na) as (s & Hs & Ca).
  destruct (node_at_conforms val m b p tb (good_wf _ _ I) Nb) as (s' & Hs' & Cb). assert (s' = s) as -> by congruence. clear Hs'.
  (* common ending: the result is stored *)
  assert (forall r m', Good fl m' -> mext fl m m' -> forall c0, cache_ok' fl m' c0 -> mul_okG fl m' p ta tb r ->
    exists c', cache_update m' c0 a b r = Ok c' /\ cache_ok' fl m' c') as FIN.
  { intros r m' I' X c0 CO0 M. unfold cache_update. rewrite (cache_pos_ok fl m' a p ta I' (node_at_ext _ _ _ _ _ _ _ X Na)). cbn [bind].
    eexists. split; [reflexivity|]. intros pos a' b' r' [H|H]; [|eapply CO0; eauto]. injection H as <- <- <- <-.
    exists p, ta, tb. split; [|split]; auto; eapply node_at_ext; eauto. }
  pose proof Na as [Va Ra]. pose proof Nb as [Vb Rb].
  inversion Ra as [? na la Ea Eba|? na va pta pfa Ea Eba|? na ea tea Ea Eba Fa]; subst;
  inversion Rb as [? nb lb Eb Ebb|? nb vb ptb pfb Eb Ebb|? nb eb teb Eb Ebb Fb]; subst;
  (destruct s as [v|sl sr]; simpl in Ca, Cb; try contradiction); rewrite Ea, Eb; cbn [get bind];
  unfold vt_of in Va, Vb; rewrite Ea in Va; rewrite Eb in Vb; simpl in Va, Vb; injection Va as Va; injection Vb as Vb;
  rewrite Va, Vb, Nat.eqb_refl; cbn [assert bind]; rewrite Eba, Ebb.
  - (* literal, literal *)
    unfold lit_var. rewrite Ca, Cb, N.eqb_refl. cbn [assert bind]. destruct (Z.eqb la lb) eqn:EZ.
    + apply Z.eqb_eq in EZ. subst lb.
      assert (subtree (m_vt m) p = Some (Leaf (lit_var la))) as S1 by (unfold lit_var; rewrite Ca; auto).
      destruct (out_lit fl m la p I S1) as (i & m' & E1 & I' & X & LV & A & FL). rewrite E1. cbn [bind].
      assert (mul_okG fl m' p (TLit la) (TLit la) (Some i, pone)) as M.
      { exists (TLit la). split; auto. split; [|auto]. cbn [snd]. rewrite (val_one HP). split; try lra; simpl; auto using positive_lit, normalized_lit, sm_ll, sm_lt, sm_tl.
        - intros x. destruct (lit_sat la x); lra.
        - intros x. destruct (lit_sat la x); auto. }
      destruct (FIN _ m' I' X c (cache_ok_ext _ _ _ _ X CO) M) as (c' & E2 & CO'). rewrite E2. cbn [bind]. eauto 10.
    + assert (mul_okG fl m p (TLit la) (TLit lb) (None, pzero)) as M.
      { split; [apply (val_zero HP)|]. intros x. simpl. unfold lit_sat. rewrite Ca, Cb. apply Z.eqb_neq in EZ.
        destruct (Z.ltb_spec 0 la), (Z.ltb_spec 0 lb), (x v); simpl; auto; exfalso; lia. }
      destruct (FIN _ m I (mext_refl _ _) c CO M) as (c' & E2 & CO'). rewrite E2. cbn [bind].
      exists (None, pzero), m, c'. split; auto. split; auto. split; [apply mext_refl|]. auto.
  - (* literal, top *)
    subst vb. unfold lit_var at 1. rewrite Ca, N.eqb_refl. cbn [assert bind].
    assert (subtree (m_vt m) p = Some (Leaf (lit_var la))) as S1 by (unfold lit_var; rewrite Ca; auto).
    destruct (out_lit fl m la p I S1) as (i & m' & E1 & I' & X & LV & A & FL). rewrite E1. cbn [bind].
    cbn [safe] in SF. change (Z.ltb 0 la) with (lit_sign la) in SF.
    assert (mul_okG fl m' p (TLit la) (TTop v (val ptb) (val pfb)) (Some i, if lit_sign la then ptb else pfb)) as M.
    { exists (TLit la). split; auto. split; [|auto]. cbn [snd]. split; simpl; auto using positive_lit, normalized_lit, sm_ll, sm_lt, sm_tl.
      - destruct (lit_sign la); auto.
      - intros x. unfold lit_sat, lit_sign. rewrite Ca. destruct (Z.ltb 0 la), (x v); simpl; lra.
      - intros x. rewrite andb_true_r; auto. }
    destruct (FIN _ m' I' X c (cache_ok_ext _ _ _ _ X CO) M) as (c' & E2 & CO'). rewrite E2. cbn [bind]. eauto 10.
  - (* top, literal *)
    subst va. unfold lit_var at 1. rewrite Cb, N.eqb_refl. cbn [assert bind].
    assert (subtree (m_vt m) p = Some (Leaf (lit_var lb))) as S1 by (unfold lit_var; rewrite Cb; auto).
    destruct (out_lit fl m lb p I S1) as (i & m' & E1 & I' & X & LV & A & FL). rewrite E1. cbn [bind].
    cbn [safe] in SF. change (Z.ltb 0 lb) with (lit_sign lb) in SF.
    assert (mul_okG fl m' p (TTop v (val pta) (val pfa)) (TLit lb) (Some i, if lit_sign lb then pta else pfa)) as M.
    { exists (TLit lb). split; auto. split; [|auto]. cbn [snd]. split; simpl; auto using positive_lit, normalized_lit, sm_ll, sm_lt, sm_tl.
      - destruct (lit_sign lb); auto.
      - intros x. unfold lit_sat, lit_sign. rewrite Cb. destruct (Z.ltb 0 lb), (x v); simpl; lra. }
    destruct (FIN _ m' I' X c (cache_ok_ext _ _ _ _ X CO) M) as (c' & E2 & CO'). rewrite E2. cbn [bind]. eauto 10.
  - (* top, top *)
    subst va vb. rewrite N.eqb_refl. cbn [assert bind]. destruct SF as [[Pt Pf] [Qt Qf]].
    set (z := padd (pmul pta ptb) (pmul pfa pfb)).
    assert (0 < val pta * val ptb) as Z1 by (apply Rmult_lt_0_compat; auto).
    assert (0 < val pfa * val pfb) as Z2 by (apply Rmult_lt_0_compat; auto).
    assert (val z = val pta * val ptb + val pfa * val pfb) as VZ by (unfold z; rewrite (val_add HP), !(val_mul HP); reflexivity).
    assert (val z <> 0) as NZ by lra.
    assert (val (pdiv (pmul pta ptb) z) = val pta * val ptb / val z) as V1 by (rewrite (val_div HP), (val_mul HP); auto).
    assert (val (pdiv (pmul pfa pfb) z) = val pfa * val pfb / val z) as V2 by (rewrite (val_div HP), (val_mul HP); auto).
    assert (0 < val pta * val ptb / val z) as Z3 by (apply Rdiv_lt_0_compat; lra).
    assert (0 < val pfa * val pfb / val z) as Z4 by (apply Rdiv_lt_0_compat; lra).
    assert (val pta * val ptb / val z + val pfa * val pfb / val z = 1) as Z5 by (rewrite VZ in *; field; auto).
    destruct (out_top fl m v (pdiv (pmul pta ptb) z) (pdiv (pmul pfa pfb) z) p I Hs) as (i & m' & nd & pt & pf & E1 & I' & X & LV & A & FL & E2 & E3 & Q1 & Q2); try (rewrite V1, ?V2; auto; fail); try (rewrite V2; auto; fail).
    rewrite E1. cbn [bind]. rewrite E2. cbn [get bind]. rewrite E3, Q1, Q2. cbn [negb assert bind].
    assert (mul_okG fl m' p (TTop v (val pta) (val pfa)) (TTop v (val ptb) (val pfb)) (Some i, z)) as M.
    { eexists. split; [exact A|]. split; [|auto]. cbn [snd]. rewrite V1, V2. split; simpl; auto using sm_tt.
      - lra.
      - intros x. destruct (x v); field; auto.
      - unfold positive; simpl; auto.
      - unfold normalized; simpl; auto. }
    destruct (FIN _ m' I' X c (cache_ok_ext _ _ _ _ X CO) M) as (c' & E4 & CO'). rewrite E4. cbn [bind]. eauto 10.
  - (* decision, decision *)
    destruct (elem_at_rep fl m a na ea p tea I Ea Eba Va Fa) as [Fa' Ba].
    destruct (elem_at_rep fl m b nb eb p teb I Eb Ebb Vb Fb) as [Fb' _].
    apply safe_dec in SF.
    destruct (mul_pairs fl n (multiply_with_cache n fl) p IH (list_prod ea eb) (list_prod tea teb) [] pzero m c I CO)
      as (new & part & m1 & c1 & tnew & E1 & I1 & X1 & CO1 & F1 & V1 & W1 & Bs1 & P1 & _ & D1 & D2 & K1).
    { apply Forall2_list_prod; auto. }
    { intros [u v] H. apply in_prod_iff in H as [H _]. destruct (Ba u H). simpl. lia. }
    { apply Forall_forall. intros [u v] H. apply in_prod_iff in H as [H1 H2]. rewrite Forall_forall in SF. specialize (SF u H1). rewrite Forall_forall in SF. apply SF; auto. }
    rewrite E1. cbn [bind]. rewrite app_nil_l. rewrite (val_zero HP) in V1.
    destruct new as [|e0 new].
    + inversion F1; subst tnew.
      assert (mul_okG fl m1 p (TDec tea) (TDec teb) (None, pzero)) as M.
      { split; [apply (val_zero HP)|]. intros x. rewrite !base_dec_b, existsb_prod, <- Bs1. reflexivity. }
      destruct (FIN _ m1 I1 X1 c1 CO1 M) as (c' & E4 & CO'). rewrite E4. cbn [bind]. eexists _, m1, c'. split; [reflexivity|auto].
    + assert (Forall (fun te => 0 < tw te) tnew) as PT by (eapply Forall_impl; [|exact P1]; intros te ((H & _) & _); auto).
      assert (0 < val part) as PZ.
      { rewrite V1. inversion F1 as [|? te0 ? tn]; subst. inversion PT as [|? ? PT1 PT2]; subst. simpl.
        assert (0 <= rsum tw tn); [|lra]. apply rsum_nonneg. intros te Hte. rewrite Forall_forall in PT2. specialize (PT2 te Hte). lra. }
      set (es1 := map (fun e => MkE (e_prime e) (e_sub e) (pdiv (e_param e) part)) (e0 :: new)).
      set (tes1 := map (fun te : telem => (tp te, ts te, tw te / val part)) tnew).
      assert (Forall2 (elem_out m1 p) es1 tes1) as FE.
      { unfold es1, tes1. clear - F1 PZ HP. induction F1 as [|e te es tes (A & B & C) F IH]; simpl; constructor; auto.
        split; [exact A|]. split; [exact B|]. unfold tw at 1; simpl. rewrite (val_div HP), C; [reflexivity|lra]. }
      assert (forallb (fun w => negb (peq w pzero)) (map (fun e => pdiv (e_param e) part) (e0 :: new)) = true) as AS.
      { apply forallb_forall. intros w Hw. apply in_map_iff in Hw as (e & <- & He). destruct (Forall2_in_l _ _ _ _ F1 He) as (te & Hte & _ & _ & C).
        rewrite peq_zero_pos; auto. rewrite (val_div HP) by lra. rewrite <- C. rewrite Forall_forall in PT. apply Rdiv_lt_0_compat; auto. }
      rewrite AS. cbn [assert bind].
      assert (subtree (m_vt m1) p = Some (VNode sl sr)) as HV by (rewrite (me_vt _ _ _ X1); auto).
      assert (es1 <> []) as NE by discriminate.
      destruct (out_dec fl m1 p sl sr es1 tes1 I1 HV NE FE) as (i & m2 & tes2 & E4 & I2 & X2 & LV & PM & A & FL).
      assert (map e_prime (e0 :: new) = map e_prime es1) as -> by (unfold es1; rewrite map_map; reflexivity).
      assert (map e_sub (e0 :: new) = map e_sub es1) as -> by (unfold es1; rewrite map_map; reflexivity).
      assert (map (fun e => pdiv (e_param e) part) (e0 :: new) = map e_param es1) as -> by (unfold es1; rewrite map_map; reflexivity).
      rewrite E4. cbn [bind].
      assert (mul_okG fl m2 p (TDec tea) (TDec teb) (Some i, part)) as M.
      { exists (TDec tes2). split; auto. split; [|auto]. cbn [snd]. eapply prod_dec; eauto. rewrite V1. lra. }
      pose proof (mext_trans _ _ _ _ X1 X2) as X12.
      destruct (FIN _ m2 I2 X12 c1 (cache_ok_ext _ _ _ _ X2 CO1) M) as (c' & E5 & CO'). rewrite E5. cbn [bind]. eexists _, m2, c'. split; [reflexivity|auto].
Qed.

(** Multiply *)
Theorem multiplyG_spec fl (m : mgr) a b p ta tb : Good fl m -> node_at m a p ta -> node_at m b p tb -> safe ta tb ->
  exists r m', Multiply m a b fl = Ok (r, m') /\ Good fl m' /\ mext fl m m' /\ mul_okG fl m' p ta tb r.
Proof.
  intros I Na Nb SF. destruct (mul_with_cache_spec fl (S a) a b m [] p ta tb) as (r & m' & c' & E & I' & X & _ & M); auto.
  { intros ? ? ? ? []. }
  exists r, m'. split; [|auto]. unfold Multiply. match goal with |- bind ?x _ = _ => change x with (multiply_with_cache (S a) fl a b (m, [])) end.
  unfold mcache in *. unfold mres in *. rewrite E. reflexivity.
Qed.
(** The result is a node exactly when the supports intersect. *)
Theorem multiplyG_null fl (m : mgr) a b p ta tb r m' : Good fl m -> node_at m a p ta -> node_at m b p tb -> safe ta tb ->
  Multiply m a b fl = Ok (r, m') -> (fst r = None <-> forall x, weight ta x * weight tb x = 0).
Proof.
  intros I Na Nb SF E. destruct (multiplyG_spec fl m a b p ta tb I Na Nb SF) as (r0 & m0 & E0 & I0 & X0 & M). rewrite E in E0. injection E0 as <- <-.
  unfold mul_okG in M. destruct (fst r) as [i|]; split; intros G; try discriminate.
  - exfalso. destruct M as (t & N & PO & _). destruct (out_conforms m' i p t (good_wf _ _ I0) N) as (s & Hs & C).
    destruct (base_sat s) with (t := t) as [x Hx]; auto.
    { eapply subtree_nodup; [apply (good_wf _ _ I0)|exact Hs]. }
    apply (weight_pos_base t x (po_pos _ _ _ _ PO)) in Hx. specialize (G x). rewrite <- (po_weight _ _ _ _ PO x) in G.
    pose proof (po_z _ _ _ _ PO). apply Rmult_integral in G. lra.
  - intros x. destruct M as [_ M]. specialize (M x). apply andb_false_iff in M as [M|M]; rewrite (weight_zero_off_base _ _ M); lra.
  - reflexivity.
Qed.
End MulG.

Section Mul.
Context {P : pops} (val : P -> R) (HP : pexact P val).
Notation mgr := (mgr P). Notation node_at := (node_at val). Notation Inv := (Inv val).
Definition mul_ok fl (m : mgr) (p : path) (ta tb : ptree) (r : mres) : Prop :=
  match fst r with
  | None => val (snd r) = 0 /\ forall x, base ta x && base tb x = false
  | Some i => exists t, node_at m i p t /\ prod_of ta tb t (val (snd r)) /\ flag_of (m_heap m) i = Some fl /\ In i (m_live m)
  end.
Lemma peq_zero_pos a : 0 < val a -> peq a pzero = false.
Proof.
  intros H. destruct (peq a pzero) eqn:E; auto. apply (val_eq HP) in E. rewrite (val_zero HP) in E. lra.
Qed.
Lemma exact_top fl m v pt pf p : Inv fl m -> subtree (m_vt m) p = Some (Leaf v) -> val pt + val pf = 1 -> 0 < val pt -> 0 < val pf ->
  exists i m' nd pt' pf', GetPsddTopNode m v fl pt pf = Ok (i, m') /\ Inv fl m' /\ mext fl m m' /\ In i (m_live m') /\
    node_at m' i p (TTop v (val pt) (val pf)) /\ flag_of (m_heap m') i = Some fl /\
    nth_error (m_heap m') i = Some nd /\ n_body nd = BTop v pt' pf' /\ peq pt' pzero = false /\ peq pf' pzero = false.
Proof.
  intros I Hs N1 N2 N3. assert (top_ok (val pt) (val pf)) as TO by (right; auto).
  destruct (top_spec val HP fl m v _ _ p I Hs TO) as (i & m' & E1 & I' & X & LV & A & FL).
  pose proof (Rep_top_inv _ _ _ _ _ _ (proj2 A)) as (nd & pt' & pf' & E2 & E3 & Q1 & Q2).
  exists i, m', nd, pt', pf'. rewrite !peq_zero_pos by lra. auto 12.
Qed.
Lemma exact_dec fl m p l r es tes : Inv fl m -> subtree (m_vt m) p = Some (VNode l r) -> es <> [] -> Forall2 (elem_at val m p) es tes ->
  exists i m' tes', GetConformedPsddDecisionNode m (map e_prime es) (map e_sub es) (map e_param es) fl = Ok (i, m') /\
    Inv fl m' /\ mext fl m m' /\ In i (m_live m') /\ Permutation tes tes' /\ node_at m' i p (TDec tes') /\ flag_of (m_heap m') i = Some fl.
Proof. intros I HV NE F. exact (get_conformed_spec val HP fl m p l r es tes tes I HV NE (lifted_direct val m p _ _ F)). Qed.
Theorem multiply_safe fl (m : mgr) a b p ta tb : Inv fl m -> node_at m a p ta -> node_at m b p tb -> safe ta tb ->
  exists r m', Multiply m a b fl = Ok (r, m') /\ Inv fl m' /\ mext fl m m' /\ mul_ok fl m' p ta tb r.
Proof.
  exact (multiplyG_spec val HP Inv node_at (fun fl m I => proj1 I) (node_at_ext val) (node_at_conforms val)
    (literal_spec val HP) exact_top exact_dec peq_zero_pos fl m a b p ta tb).
Qed.
(** The result is a node exactly when the supports intersect. *)
Theorem multiply_safe_null fl (m : mgr) a b p ta tb r m' : Inv fl m -> node_at m a p ta -> node_at m b p tb -> safe ta tb ->
  Multiply m a b fl = Ok (r, m') -> (fst r = None <-> forall x, weight ta x * weight tb x = 0).
Proof.
  exact (multiplyG_null val HP Inv node_at (fun fl m I => proj1 I) (node_at_ext val) (node_at_conforms val)
    (literal_spec val HP) exact_top exact_dec peq_zero_pos fl m a b p ta tb r m').
Qed.
(** Positive parameters *)
Theorem multiply_spec fl (m : mgr) a b p ta tb : Inv fl m -> node_at m a p ta -> node_at m b p tb -> positive ta -> positive tb ->
  exists r m', Multiply m a b fl = Ok (r, m') /\ Inv fl m' /\ mext fl m m' /\ mul_ok fl m' p ta tb r.
Proof. intros I Na Nb Pa Pb. apply multiply_safe; auto. apply positive_safe; auto. Qed.
Theorem multiply_null fl (m : mgr) a b p ta tb r m' : Inv fl m -> node_at m a p ta -> node_at m b p tb -> positive ta -> positive tb ->
  Multiply m a b fl = Ok (r, m') -> (fst r = None <-> forall x, weight ta x * weight tb x = 0).
Proof. intros I Na Nb Pa Pb. apply (multiply_safe_null fl m a b p ta tb r m'); auto. apply positive_safe; auto. Qed.
End Mul.
