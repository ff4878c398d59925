(** Numbers of calls (C90). *)
From Coq Require Import Reals Lra.
From Verif Require Import Base Param ParamProofs Vtree VtreeProofs Heap Manager HeapProofs SerProofs OrderProofs CanonProofs MulProofs Query Learn SizeProofs MulCost.
Local Open Scope nat_scope.

Section Cost.
Context {P : pops}.
Notation heap := (heap P). Notation mgr := (mgr P). Notation node := (node P).
Notation mcache := (@mcache P). Notation mres := (@mres P).

(** ** The counter changes nothing *)
Definition erase {A} (x : res (A * nat)) : res A := do (a, _) <- x ;; Ok a.
Lemma erase_bind {A B} (x : res (A * nat)) (f : A -> res B) : bind (erase x) f = bind x (fun y => f (fst y)).
Proof. destruct x as [[a k]| | |]; reflexivity. Qed.
Lemma fold_erase (rec : nat -> nat -> mgr * mcache -> nat -> res (mres * (mgr * mcache) * nat)) rec' :
  (forall a b (s : mgr * mcache) k, erase (rec a b s k) = rec' a b s) ->
  forall L st k, erase (foldM (count_pair rec) L (st, k)) = foldM (mul_pair rec') L st.
Proof.
  intros H. induction L as [|[x y] L IH]; intros [[acc part] s] k; cbn [foldM]; [reflexivity|].
  unfold count_pair at 1, mul_pair at 1. rewrite <- (H (e_prime x) (e_prime y) s k).
  destruct (rec (e_prime x) (e_prime y) s k) as [[[pr s1] k1]| | |]; try reflexivity. cbn [erase bind].
  destruct (fst pr) as [pi|]; [|cbn [bind]; apply IH]. rewrite <- (H (e_sub x) (e_sub y) s1 k1).
  destruct (rec (e_sub x) (e_sub y) s1 k1) as [[[sr s2] k2]| | |]; try reflexivity. cbn [erase bind].
  destruct (fst sr) as [si|]; cbn [bind]; apply IH.
Qed.
Lemma mul_calls_erase fl fuel : forall a b (s : mgr * mcache) k, erase (mul_calls fuel fl a b s k) = multiply_with_cache fuel fl a b s.
Proof.
  induction fuel as [|f IH]; intros a b [m c] k; [reflexivity|]. cbn [mul_calls multiply_with_cache].
  destruct (cache_pos m a) as [pos| | |] eqn:Ep; cbn [bind]; try reflexivity.
  destruct (alookup key_eqb (pos, a, b) c) as [r|] eqn:El; [reflexivity|].
  destruct (nth_error (m_heap m) a) as [na|] eqn:Ea; cbn [get bind]; try reflexivity.
  destruct (nth_error (m_heap m) b) as [nb|] eqn:Eb; cbn [get bind]; try reflexivity.
  destruct (assert (vpos (m_vt m) (n_vt na) =? vpos (m_vt m) (n_vt nb))) as [u| | |] eqn:Eu; cbn [bind]; try reflexivity.
  assert (LEAF : forall x : res (mres * (mgr * mcache)), erase (do y <- x ;; Ok (y, S k)) = x) by (intros [x| | |]; reflexivity).
  destruct (n_body na) as [la|va ta fa|ea] eqn:Ba; destruct (n_body nb) as [lb|vb tb fb|eb] eqn:Bb; try reflexivity;
    try (apply LEAF).
  rewrite <- (fold_erase _ _ IH _ _ (S k)). destruct (foldM (count_pair (mul_calls f fl)) (list_prod ea eb) ([], pzero, (m, c), S k)) as [[[[acc part] [m1 c1]] k1]| | |]; try reflexivity.
  cbn [erase bind]. destruct acc as [|e acc].
  - destruct (cache_update m1 c1 a b (None, pzero)); reflexivity.
  - destruct (assert (forallb (fun w => negb (peq w pzero)) (map (fun e : elem P => pdiv (e_param e) part) (e :: acc)))); cbn [bind]; try reflexivity. destruct (GetConformedPsddDecisionNode _ _ _ _ _) as [[i m2]| | |]; cbn [bind]; try reflexivity.
    destruct (cache_update m2 c1 a b (Some i, part)); reflexivity.
Qed.
Lemma erase_ok {A} (x : res (A * nat)) a k y : x = Ok (a, k) -> erase x = y -> y = Ok a.
Proof. intros -> <-. reflexivity. Qed.
(** The counter counts at least the call itself. *)
Lemma calls_up fl fuel : forall a b (s : mgr * mcache) k x k', mul_calls fuel fl a b s k = Ok (x, k') -> S k <= k'.
Proof.
  induction fuel as [|f IH]; intros a b [m c] k x k' E; [discriminate|]. cbn [mul_calls] in E. bk E as pos _.
  destruct (alookup key_eqb (pos, a, b) c) as [r|]; [injection E as <- <-; lia|]. bk E as na _. bk E as nb _. bk E as u _.
  assert (LEAF : forall y : res (mres * (mgr * mcache)), (do z <- y ;; Ok (z, S k)) = Ok (x, k') -> S k <= k') by (intros [y| | |] Q; cbn in Q; try discriminate; injection Q as _ <-; lia).
  destruct (n_body na) as [la|va ta fa|ea]; destruct (n_body nb) as [lb|vb tb fb|eb]; try (apply LEAF in E; exact E).
  bk E as [[[acc part] [m1 c1]] k1] E1.
  assert (K : forall L (acc : list (elem P)) (part : P) (s : mgr * mcache) k acc' part' s' k', foldM (count_pair (mul_calls f fl)) L (acc, part, s, k) = Ok (acc', part', s', k') -> k <= k').
  { clear - IH. induction L as [|[x y] L IHL]; intros acc part s k acc' part' s' k' E; cbn [foldM] in E; [injection E as _ _ _ <-; lia|].
    bk E as [[[acc1 part1] s1] k1] E1. apply IHL in E. unfold count_pair in E1. bk E1 as [[pr s2] k2] E2. apply IH in E2. destruct (fst pr); [|injection E1 as _ _ _ <-; lia].
    bk E1 as [[sr s3] k3] E3. apply IH in E3. destruct (fst sr); injection E1 as _ _ _ <-; lia. }
  apply K in E1. destruct acc as [|e acc]; [bk E as c2 _; injection E as _ <-; lia|]. bk E as u1 _. bk E as [i m2] _. bk E as c2 _. injection E as _ <-. lia.
Qed.
Theorem multiply_calls_erase (m : mgr) a b fl : erase (MultiplyCalls m a b fl) = Multiply m a b fl.
Proof.
  unfold MultiplyCalls, Multiply. rewrite <- (mul_calls_erase fl (S a) a b (m, []) 0).
  destruct (mul_calls (S a) fl a b (m, []) 0) as [[[r s] k]| | |]; reflexivity.
Qed.

Context (Hr : forall a : P, peq a a = true) (Hi : forall a : P, plt a a = false).
(** ** At most two calls for every pair of elements *)
Section Fixed.
Context (root : vtree) (h0 : heap) (H0 : heap_ok root h0) (fl : N).
Notation mst := (mst root h0).
Lemma calls_fold f a b na nb ea eb : nth_error h0 a = Some na -> n_body na = BDec ea -> nth_error h0 b = Some nb -> n_body nb = BDec eb ->
  (forall a b m c k r m' c' k', mst m c -> a < length h0 -> b < length h0 -> mul_calls f fl a b (m, c) k = Ok (r, (m', c'), k') ->
     forall K, c' = K ++ c -> k' <= k + 1 + 2 * csum h0 K) ->
  forall L acc part m c k acc' part' m' c' k', mst m c -> (forall x y, In (x, y) L -> In x ea /\ In y eb) ->
  foldM (count_pair (mul_calls f fl)) L (acc, part, (m, c), k) = Ok (acc', part', (m', c'), k') ->
  exists K, c' = K ++ c /\ k' <= k + 2 * length L + 2 * csum h0 K.
Proof.
  intros Ea Ba Eb Bb HK. pose proof (H0 _ _ Ea) as Oa. pose proof (H0 _ _ Eb) as Ob. unfold node_ok in Oa, Ob. rewrite Ba in Oa. rewrite Bb in Ob.
  destruct Oa as (_ & _ & Fa). destruct Ob as (_ & _ & Fb). rewrite Forall_forall in Fa, Fb.
  assert (LA : a < length h0) by (apply nth_error_Some; congruence). assert (LB : b < length h0) by (apply nth_error_Some; congruence).
  assert (HG : forall a b m c k r m' c' k', mst m c -> a < length h0 -> b < length h0 -> mul_calls f fl a b (m, c) k = Ok (r, (m', c'), k') ->
     mst m' c' /\ exists K, c' = K ++ c /\ k' <= k + 1 + 2 * csum h0 K).
  { intros a1 b1 m c k r m' c' k' S L1 L2 E. pose proof (erase_ok _ _ _ _ E (mul_calls_erase fl f a1 b1 (m, c) k)) as E1.
    destruct (multiply_grown Hr Hi root h0 H0 fl f a1 b1 m c r m' c' S L1 L2 E1) as [(S' & K & EK & _) _]. split; [exact S'|]. exists K. split; [exact EK|].
    exact (HK a1 b1 m c k r m' c' k' S L1 L2 E K EK). }
  induction L as [|[x y] L IH]; intros acc part m c k acc' part' m' c' k' S IL E; cbn [foldM] in E.
  - injection E as <- <- <- <- <-. exists []. split; [reflexivity|]. cbn. lia.
  - bk E as [[[acc1 part1] [m1 c1]] k1] E1. unfold count_pair in E1.
    destruct (IL x y (or_introl eq_refl)) as [Ix Iy]. destruct (Fa x Ix) as (P1 & P2 & P3 & P4). destruct (Fb y Iy) as (Q1 & Q2 & Q3 & Q4).
    assert (IL' : forall x y, In (x, y) L -> In x ea /\ In y eb) by (intros; apply IL; right; auto).
    bk E1 as [[pr [m2 c2]] k2] E2. apply HG in E2 as (S2 & K2 & -> & A2); [|auto|lia|lia].
    destruct (fst pr) as [pi|].
    + bk E1 as [[sr [m3 c3]] k3] E3. apply HG in E3 as (S3 & K3 & -> & A3); [|auto|lia|lia].
      assert (X : m1 = m3 /\ c1 = K3 ++ K2 ++ c /\ k1 = k3) by (destruct (fst sr); injection E1 as <- <- <- <- <-; auto).
      destruct X as (-> & -> & ->). apply IH in E as (K4 & -> & A4); auto.
      exists (K4 ++ K3 ++ K2). rewrite !app_assoc. split; auto. rewrite !csum_app. cbn [length]. lia.
    + injection E1 as <- <- <- <- <-. apply IH in E as (K4 & -> & A4); auto.
      exists (K4 ++ K2). rewrite !app_assoc. split; auto. rewrite !csum_app. cbn [length]. lia.
Qed.
Lemma calls_bound fuel : forall a b m c k r m' c' k', mst m c -> a < length h0 -> b < length h0 -> mul_calls fuel fl a b (m, c) k = Ok (r, (m', c'), k') ->
  forall K, c' = K ++ c -> k' <= k + 1 + 2 * csum h0 K.
Proof.
  induction fuel as [|f IH]; intros a b m c k r m' c' k' S La Lb E K EK; cbn [mul_calls] in E; [discriminate|].
  bk E as pos Ep. destruct (alookup key_eqb (pos, a, b) c) as [x|] eqn:EL. { injection E as <- <- <- <-. lia. }
  bk E as na Ea. bk E as nb Eb. bk E as u _.
  destruct (nth_error (m_heap m) a) as [na'|] eqn:Na; [|discriminate]. injection Ea as ->. destruct (nth_error (m_heap m) b) as [nb'|] eqn:Nb; [|discriminate]. injection Eb as ->.
  apply (base_nth root h0 m c a _ S La) in Na. apply (base_nth root h0 m c b _ S Lb) in Nb.
  assert (LEAF : forall x : res (mres * (mgr * mcache)), (do y <- x ;; Ok (y, Datatypes.S k)) = Ok (r, (m', c'), k') -> k' = Datatypes.S k) by (intros [x| | |] Q; cbn in Q; congruence).
  destruct (n_body na) as [la|va ta fa|ea] eqn:Ba; destruct (n_body nb) as [lb|vb tb fb|eb] eqn:Bb; try (apply LEAF in E; lia).
  bk E as [[[acc part] [m1 c1]] k1] E1. destruct (calls_fold f a b na nb ea eb Na Ba Nb Bb IH _ _ _ _ _ _ _ _ _ _ _ S ltac:(intros x y I; apply in_prod_iff in I; exact I) E1) as (K1 & EK1 & A1).
  rewrite prod_length in A1.
  assert (X : k' = k1 /\ exists m2 r2, cache_update m2 c1 a b r2 = Ok c').
  { destruct acc as [|e acc]; [bk E as c2 E3; injection E as <- <- <- <-; eauto|]. bk E as u1 _. bk E as [i m2] E4. bk E as c2 E3. injection E as <- <- <- <-. eauto. }
  destruct X as (-> & m2 & r2 & E3). unfold cache_update in E3. bk E3 as pos' _. injection E3 as E3. rewrite <- E3, EK1 in EK.
  assert (K = ((pos', a, b), r2) :: K1) as ->. { apply (app_inv_tail c). rewrite <- EK. reflexivity. }
  assert (CS : csum h0 (((pos', a, b), r2) :: K1) = pw h0 (a, b) + csum h0 K1) by reflexivity. rewrite CS.
  assert (PW : pw h0 (a, b) = length ea * length eb) by (unfold pw, width_at, width; cbn [fst snd]; rewrite Na, Nb, Ba, Bb; reflexivity). lia.
Qed.
End Fixed.
(** Multiply makes at most two calls for every pair of elements of the two arguments, and one more. *)
Theorem multiply_calls (m : mgr) a b fl r m' k La Lb za zb : Wf m -> a < length (m_heap m) -> b < length (m_heap m) ->
  SerializePsddNodes (m_heap m) [a] = Ok La -> GetPsddSize (m_heap m) a = Ok za ->
  SerializePsddNodes (m_heap m) [b] = Ok Lb -> GetPsddSize (m_heap m) b = Ok zb ->
  MultiplyCalls m a b fl = Ok (r, m', k) -> k <= 1 + 2 * ((za + length La) * (zb + length Lb)).
Proof.
  intros W LA LB SA ZA SB ZB E. destruct (sized _ _ _ _ _ (wf_heap _ W) LA SA ZA) as [OA QA]. destruct (sized _ _ _ _ _ (wf_heap _ W) LB SB ZB) as [OB QB].
  unfold MultiplyCalls in E. bk E as [[r1 [m1 c1]] k1] E1. injection E as <- <- <-.
  assert (S0 : mst (m_vt m) (m_heap m) m []).
  { split; [exact W|reflexivity|exists []; rewrite app_nil_r; auto|constructor|intros ? ? ? ? []|intros ? ? ? ? ? []|intros ? ? ? ? ? []]. }
  pose proof (erase_ok _ _ _ _ E1 (mul_calls_erase fl (S a) a b (m, []) 0)) as E2.
  destruct (multiply_grown Hr Hi (m_vt m) (m_heap m) (wf_heap _ W) fl (S a) a b m [] r1 m1 c1 S0 LA LB E2) as [(S1 & K & EK & A & F) _].
  pose proof (calls_bound (m_vt m) (m_heap m) (wf_heap _ W) fl (S a) a b m [] 0 r1 m1 c1 k1 S0 LA LB E1 K EK) as B.
  rewrite app_nil_r in EK. subst c1. pose proof (ms_nodup _ _ _ _ S1) as ND.
  assert (IN : incl (map pair_of K) (list_prod La Lb)).
  { intros [i j] I. apply in_map_iff in I as (e & Q & I). rewrite Forall_forall in F. destruct (F e I) as [R1 R2]. rewrite Q in R1, R2.
    apply in_prod_iff. rewrite (so_in _ _ _ OA), (so_in _ _ _ OB). auto. }
  assert (B2 : csum (m_heap m) K <= list_sum (map (width_at (m_heap m)) La) * list_sum (map (width_at (m_heap m)) Lb)).
  { unfold csum. rewrite <- sum_prod. pose proof (sum_incl (pw (m_heap m)) _ ND _ IN) as LE. rewrite map_map in LE. exact LE. }
  assert (LE : list_sum (map (width_at (m_heap m)) La) * list_sum (map (width_at (m_heap m)) Lb) <= (za + length La) * (zb + length Lb)).
  { apply Nat.mul_le_mono; [rewrite QA|rewrite QB]; eapply width_size; apply W. }
  lia.
Qed.

(** ** Recursion is no deeper than the vtree *)
Lemma subtree_height t p s : subtree t p = Some s -> forall b s', subtree t (b :: p) = Some s' -> vheight s' < vheight s.
Proof.
  intros E b s' E'. cbn [subtree] in E'. rewrite E in E'. destruct s as [|l r]; [discriminate|]. injection E' as <-. destruct b; cbn [vheight]; lia.
Qed.
Definition enough (m : mgr) (f a : nat) : Prop := a < f \/ exists p s, vt_of (m_heap m) a = Some p /\ subtree (m_vt m) p = Some s /\ vheight s < f.
Lemma enough_ext fl (m m' : mgr) f a : mext fl m m' -> enough m f a -> enough m' f a.
Proof.
  intros X [L|(p & s & E1 & E2 & L)]; [left; auto|]. right. exists p, s. rewrite (me_vt _ _ _ X). destruct (me_heap _ _ _ X) as (l & -> & _).
  split; [apply vt_of_app; auto|auto].
Qed.
Lemma depth_fold fl f g : (forall a b (s : mgr * mcache), Wf (fst s) -> enough (fst s) f a -> enough (fst s) g a -> multiply_with_cache f fl a b s = multiply_with_cache g fl a b s) ->
  forall L acc part s, Wf (fst s) -> Forall (fun ab => (enough (fst s) f (e_prime (fst ab)) /\ enough (fst s) g (e_prime (fst ab))) /\ enough (fst s) f (e_sub (fst ab)) /\ enough (fst s) g (e_sub (fst ab))) L ->
  foldM (mul_pair (multiply_with_cache f fl)) L (acc, part, s) = foldM (mul_pair (multiply_with_cache g fl)) L (acc, part, s).
Proof.
  intros HR. induction L as [|[x y] L IH]; intros acc part s W F; cbn [foldM]; [reflexivity|]. inversion F as [|? ? [[F1 F2] [F3 F4]] F5]; subst. cbn [fst] in *.
  unfold mul_pair at 1 3. rewrite <- (HR (e_prime x) (e_prime y) s) by auto.
  destruct (multiply_with_cache f fl (e_prime x) (e_prime y) s) as [[pr s1]| | |] eqn:E1; try reflexivity. cbn [bind].
  destruct (multiply_cache_wf Hr Hi fl f _ _ _ _ _ W E1) as [W1 X1].
  assert (FX : forall s2 : mgr * mcache, mext fl (fst s) (fst s2) -> Forall (fun ab : elem P * elem P => (enough (fst s2) f (e_prime (fst ab)) /\ enough (fst s2) g (e_prime (fst ab))) /\ enough (fst s2) f (e_sub (fst ab)) /\ enough (fst s2) g (e_sub (fst ab))) L).
  { intros s2 X. eapply Forall_impl; [|exact F5]. cbv beta. intros ab [[G1 G2] [G3 G4]]. repeat split; eapply enough_ext; eauto. }
  destruct (fst pr) as [pi|]; cbn [bind]; [|apply IH; auto].
  rewrite <- (HR (e_sub x) (e_sub y) s1); auto; try (eapply enough_ext; eauto).
  destruct (multiply_with_cache f fl (e_sub x) (e_sub y) s1) as [[sr s2]| | |] eqn:E2; try reflexivity. cbn [bind].
  destruct (multiply_cache_wf Hr Hi fl f _ _ _ _ _ W1 E2) as [W2 X2]. assert (mext fl (fst s) (fst s2)) by (eapply mext_trans; eauto).
  destruct (fst sr); cbn [bind]; apply IH; auto.
Qed.
Lemma depth_same fl f : forall g a b (s : mgr * mcache), Wf (fst s) -> enough (fst s) f a -> enough (fst s) g a -> multiply_with_cache f fl a b s = multiply_with_cache g fl a b s.
Proof.
  induction f as [|f IH]; intros g a b [m c] W EF EG; cbn [fst] in *.
  { destruct EF as [L|(p & s & _ & _ & L)]; lia. }
  destruct g as [|g]. { destruct EG as [L|(p & s & _ & _ & L)]; lia. }
  cbn [multiply_with_cache]. destruct (cache_pos m a) as [pos| | |]; cbn [bind]; try reflexivity.
  destruct (alookup key_eqb (pos, a, b) c); [reflexivity|].
  destruct (nth_error (m_heap m) a) as [na|] eqn:Ea; cbn [get bind]; try reflexivity.
  destruct (nth_error (m_heap m) b) as [nb|] eqn:Eb; cbn [get bind]; try reflexivity.
  destruct (assert _) as [u| | |]; cbn [bind]; try reflexivity.
  destruct (n_body na) as [la|va ta fa|ea] eqn:Ba; destruct (n_body nb) as [lb|vb tb fb|eb] eqn:Bb; try reflexivity.
  rewrite (depth_fold fl f g); auto. apply Forall_forall. intros [x y] I. apply in_prod_iff in I as [Ix _]. cbn [fst].
  pose proof (wf_heap _ W _ _ Ea) as Oa. unfold node_ok in Oa. rewrite Ba in Oa. destruct Oa as (_ & (vl & vr & SV) & Fa). rewrite Forall_forall in Fa. destruct (Fa x Ix) as (P1 & P2 & P3 & P4).
  assert (K : forall n, enough m (S n) a -> enough m n (e_prime x) /\ enough m n (e_sub x)).
  { intros n [L|(p & s & E1 & E2 & L)]; [split; left; lia|]. unfold vt_of in E1. rewrite Ea in E1. injection E1 as <-. rewrite SV in E2. injection E2 as <-. cbn [vheight] in L.
    split; right; eexists; eexists; (split; [first [exact P3|exact P4]|]); cbn [subtree]; rewrite SV; (split; [reflexivity|lia]). }
  destruct (K f EF), (K g EG). auto.
Qed.
Lemma height_le : forall p t s, subtree t p = Some s -> vheight s <= vheight t.
Proof.
  induction p as [|b p IH]; intros t s E; [injection E as <-; lia|]. cbn [subtree] in E. destruct (subtree t p) as [u|] eqn:Eu; [|discriminate]. apply IH in Eu.
  destruct u as [|l r]; [discriminate|]. injection E as <-. cbn [vheight] in Eu. destruct b; lia.
Qed.
Theorem multiply_depth (m : mgr) a b fl : Wf m -> a < length (m_heap m) ->
  (do (r, s) <- multiply_with_cache (S (vheight (m_vt m))) fl a b (m, []) ;; Ok (r, fst s)) = Multiply m a b fl.
Proof.
  intros W L. unfold Multiply. rewrite (depth_same fl (S (vheight (m_vt m))) (S a) a b (m, [])); auto; cbn [fst]; [|left; lia].
  destruct (vt_of_get _ _ L) as (p & Ep). right. exists p. assert (exists s, subtree (m_vt m) p = Some s) as (s & Es).
  { unfold vt_of in Ep. destruct (nth_error (m_heap m) a) as [nd|] eqn:En; [|discriminate]. injection Ep as <-. pose proof (wf_heap _ W _ _ En) as O. unfold node_ok in O.
    destruct (n_body nd); eauto. destruct O as (_ & (l & r & E) & _). eauto. }
  exists s. split; auto. split; auto. apply height_le in Es. lia.
Qed.
(** ** Samples *)
Theorem sample_erase fuel : forall (h : heap) i x s k, erase (sample_calls fuel h i x s k) = DirectSample fuel h i x s.
Proof.
  induction fuel as [|f IH]; intros h i x s k; [reflexivity|]. cbn [sample_calls DirectSample]. destruct (node_of h i) as [nd| | |]; cbn [bind]; try reflexivity.
  destruct (n_body nd) as [l|v pt pf|es]; [reflexivity|destruct (draw s); reflexivity|]. destruct (draw s) as [us| | |]; cbn [bind]; try reflexivity.
  destruct (pick (fst us) pzero es) as [e| | |]; cbn [bind]; try reflexivity. rewrite <- (IH h (e_prime e) x (snd us) (S k)).
  destruct (sample_calls f h (e_prime e) x (snd us) (S k)) as [[xs k1]| | |]; cbn [erase bind]; auto.
Qed.
Lemma pick_in (u : P) : forall es acc e, pick u acc es = Ok e -> In e es.
Proof. induction es as [|e0 es IH]; intros acc e E; cbn [pick] in E; [discriminate|]. destruct (plt u (padd acc (e_param e0))); [injection E as <-; left; auto|right; eauto]. Qed.
Theorem sample_visits root (h : heap) : heap_ok root h -> forall fuel i x s k r k' p t, vt_of h i = Some p -> subtree root p = Some t ->
  sample_calls fuel h i x s k = Ok (r, k') -> k' = k + vnodes t.
Proof.
  intros H. induction fuel as [|f IH]; intros i x s k r k' p t Ep Et E; [discriminate|]. cbn [sample_calls] in E. unfold node_of in E. bk E as nd En.
  destruct (nth_error h i) as [nd'|] eqn:N; [|discriminate]. injection En as ->. unfold vt_of in Ep. rewrite N in Ep. injection Ep as <-. pose proof (H _ _ N) as O. unfold node_ok in O.
  destruct (n_body nd) as [l|v pt pf|es].
  - rewrite O in Et. injection Et as <-. injection E as <- <-. cbn. lia.
  - rewrite O in Et. injection Et as <-. bk E as us _. injection E as <- <-. cbn. lia.
  - destruct O as (_ & (vl & vr & SV) & F). rewrite SV in Et. injection Et as <-. bk E as us _. bk E as e Pe. bk E as [xs k1] E1. apply pick_in in Pe.
    rewrite Forall_forall in F. destruct (F _ Pe) as (_ & _ & P3 & P4).
    eapply (IH (e_prime e) _ _ _ _ _ (false :: n_vt nd) vl) in E1; auto; [|cbn [subtree]; rewrite SV; reflexivity].
    eapply (IH (e_sub e) _ _ _ _ _ (true :: n_vt nd) vr) in E; auto; [|cbn [subtree]; rewrite SV; reflexivity]. cbn [vnodes]. lia.
Qed.
End Cost.
