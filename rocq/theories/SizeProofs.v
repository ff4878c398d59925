(** How many nodes an operation adds, and of what size (C76).  Structural: needs nothing of the parameters except that they
    are equal to / not less than themselves. *)
From Coq Require Import Reals Lra.
From Verif Require Import Base Param ParamProofs Vtree VtreeProofs Heap Manager HeapProofs SerProofs OrderProofs CanonProofs MulProofs Query Learn.

Section Size.
Context {P : pops}.
Notation heap := (heap P). Notation mgr := (mgr P). Notation node := (node P).
Context (Hr : forall a : P, peq a a = true) (Hi : forall a : P, plt a a = false).

(** Size of a node: number of elements of a decision node, one for a leaf. *)
Definition width (nd : node) : nat := match n_body nd with BDec es => length es | _ => 1 end.
Definition width_at (h : heap) (i : nat) : nat := match nth_error h i with Some nd => width nd | None => 0 end.
(** [m'] is [m] with at most [n] more nodes, of total size at most [w]. *)
Definition adds (m m' : mgr) (n w : nat) : Prop :=
  exists l, m_heap m' = m_heap m ++ l /\ length l <= n /\ list_sum (map width l) <= w.
Lemma adds_refl (m : mgr) : adds m m 0 0.
Proof. exists []. rewrite app_nil_r. auto. Qed.
Lemma adds_trans m1 m2 m3 n1 n2 w1 w2 : adds m1 m2 n1 w1 -> adds m2 m3 n2 w2 -> adds m1 m3 (n1 + n2) (w1 + w2).
Proof.
  intros (l1 & E1 & A1 & B1) (l2 & E2 & A2 & B2). exists (l1 ++ l2). rewrite E2, E1, app_assoc, app_length, map_app, list_sum_app.
  repeat split; lia.
Qed.
Lemma adds_le m m' n w n' w' : adds m m' n w -> n <= n' -> w <= w' -> adds m m' n' w'.
Proof. intros (l & E & A & B) H1 H2. exists l. repeat split; auto; lia. Qed.
(** Two nodes that the unique table takes for the same one have the same elements up to parameters.  (Not so if parameters
    can be neither equal nor less, as NaN.) *)
Definition shaped : Prop := forall (a b : node) ea eb, equiv a b = true -> n_body a = BDec ea -> n_body b = BDec eb ->
  map e_prime ea = map e_prime eb /\ map e_sub ea = map e_sub eb.
(** Node [i] has at most [w] elements, GetPsddSize counts at most [z] for it, and its children satisfy [C]. *)
Definition made (h : heap) (i w z : nat) (C : nat -> Prop) : Prop :=
  exists nd, nth_error h i = Some nd /\ (shaped -> width nd <= w /\ node_size nd <= z /\ forall k, In k (children nd) -> C k).
Lemma made_app h l i w z C : made h i w z C -> made (h ++ l) i w z C.
Proof. intros (nd & E & F). exists nd. split; auto. rewrite nth_error_app1; auto. apply nth_error_Some. congruence. Qed.
Lemma made_impl h i w z w' z' (C C' : nat -> Prop) : made h i w z C -> w <= w' -> z <= z' -> (forall k, C k -> C' k) -> made h i w' z' C'.
Proof. intros (nd & E & F) H1 H2 H. exists nd. split; auto. intros S. destruct (F S) as (A & B & D). repeat split; auto; lia. Qed.
Lemma unique_adds m nd i m' : Wf m -> node_ok (m_vt m) (m_heap m) (length (m_heap m)) nd -> GetUniqueNode m nd = (i, m') ->
  Wf m' /\ m_vt m' = m_vt m /\ vt_of (m_heap m') i = Some (n_vt nd) /\ adds m m' 1 (width nd) /\
  made (m_heap m') i (width nd) (node_size nd) (fun k => In k (children nd)).
Proof.
  intros W N E. destruct (unique_wf Hr Hi m nd i m' W N E) as (W' & X & _ & V & _).
  destruct (unique_spec Hr Hi m nd i m' W N E) as (_ & _ & _ & (nd' & En & SS & EQ) & D).
  split; [exact W'|]. split; [apply X|]. split; [exact V|]. split.
  2: { exists nd'. split; auto. intros S. unfold same_slot in SS. apply andb_true_iff in SS as [_ SS]. unfold width, node_size, children.
    specialize (S nd nd'). destruct (n_body nd) as [la|va ta fa|ea], (n_body nd') as [lb|vb tb fb|eb]; try discriminate; auto.
    destruct (S ea eb EQ eq_refl eq_refl) as [Q1 Q2]. rewrite Q1, Q2. apply (f_equal (@length _)) in Q1. rewrite !map_length in Q1. split; [lia|]. split; [lia|auto]. }
  destruct D as [[-> _]|(_ & E2 & _)].
  - eapply adds_le; [apply adds_refl|lia|lia].
  - exists [nd]. rewrite E2. cbn. repeat split; lia.
Qed.
Lemma literal_adds m l fl i m' p : Wf m -> subtree (m_vt m) p = Some (Leaf (lit_var l)) -> GetPsddLiteralNode m l fl = Ok (i, m') ->
  Wf m' /\ m_vt m' = m_vt m /\ vt_of (m_heap m') i = Some p /\ adds m m' 1 1 /\ made (m_heap m') i 1 0 (fun _ => False).
Proof.
  intros W S E. unfold GetPsddLiteralNode in E. pose proof (leaf_path_unique _ _ _ (wf_leaves _ W) S) as Ep.
  unfold lit_var in *. rewrite Ep in E. assert (Eu : GetUniqueNode m (MkN p fl (BLit l)) = (i, m')) by congruence.
  apply (unique_adds m (MkN p fl (BLit l)) i m' W S Eu).
Qed.
Lemma top_adds m v fl pt pf i m' p : Wf m -> subtree (m_vt m) p = Some (Leaf v) -> GetPsddTopNode m v fl pt pf = Ok (i, m') ->
  Wf m' /\ m_vt m' = m_vt m /\ vt_of (m_heap m') i = Some p /\ adds m m' 1 1 /\ made (m_heap m') i 1 1 (fun _ => False).
Proof.
  intros W S E. unfold GetPsddTopNode in E. pose proof (leaf_path_unique _ _ _ (wf_leaves _ W) S) as Ep.
  rewrite Ep in E. assert (Eu : GetUniqueNode m (MkN p fl (BTop v pt pf)) = (i, m')) by congruence.
  apply (unique_adds m (MkN p fl (BTop v pt pf)) i m' W S Eu).
Qed.
Lemma intern_dec_adds m p l r es fl i m' : Wf m -> subtree (m_vt m) p = Some (VNode l r) -> es <> [] -> direct m p es ->
  GetUniqueNode m (MkN p fl (BDec (sort_elems es))) = (i, m') ->
  Wf m' /\ m_vt m' = m_vt m /\ vt_of (m_heap m') i = Some p /\ adds m m' 1 (length es) /\
  made (m_heap m') i (length es) (length es - 1) (fun k => In k (map e_prime es) \/ In k (map e_sub es)).
Proof.
  intros W S NE D E.
  assert (NO : node_ok (m_vt m) (m_heap m) (length (m_heap m)) (MkN p fl (BDec (sort_elems es)))).
  { simpl. split; [|split; eauto].
    - intros Z. apply NE. pose proof (sort_elems_perm es) as PS. rewrite Z in PS. apply Permutation_nil in PS. auto.
    - apply Forall_forall. intros e He. apply (Permutation_in _ (sort_elems_perm es)) in He.
      unfold direct in D. rewrite Forall_forall in D. destruct (D e He) as [A B]. repeat split; auto; eapply vt_of_lt; eauto. }
  destruct (unique_adds m _ i m' W NO E) as (A & B & C & F & M). unfold width, node_size, children in F, M. simpl in F, M.
  rewrite (Permutation_length (sort_elems_perm es)) in F, M. do 4 (split; [assumption|]). eapply made_impl; [exact M|lia|lia|]. simpl. intros k I.
  apply in_app_iff in I as [I|I]; [left|right]; eapply Permutation_in; try exact I; apply Permutation_map, sort_elems_perm.
Qed.
Lemma dec_adds m p l r es fl i m' : Wf m -> subtree (m_vt m) p = Some (VNode l r) -> es <> [] -> direct m p es ->
  GetConformedPsddDecisionNode m (map e_prime es) (map e_sub es) (map e_param es) fl = Ok (i, m') ->
  Wf m' /\ m_vt m' = m_vt m /\ vt_of (m_heap m') i = Some p /\ adds m m' 1 (length es) /\
  made (m_heap m') i (length es) (length es - 1) (fun k => In k (map e_prime es) \/ In k (map e_sub es)).
Proof.
  intros W S NE D E. rewrite (conformed_direct m p l r es fl S NE D) in E. injection E as E. eapply intern_dec_adds; eauto.
Qed.
(** The same for any list of parameters. *)
Lemma mk_elems_shape (ws : list P) ps : forall k ss es, mk_elems ws k ps ss = Ok es -> map e_prime es = ps /\ map e_sub es = ss.
Proof.
  induction ps as [|p ps IH]; intros k [|s ss] es E; simpl in E; try discriminate.
  - injection E as <-. auto.
  - bk E as w _. bk E as es1 E1. injection E as <-. apply IH in E1 as [<- <-]. auto.
Qed.
Lemma dec_adds_any m p l r es ws fl i m' : Wf m -> subtree (m_vt m) p = Some (VNode l r) -> es <> [] -> direct m p es ->
  GetConformedPsddDecisionNode m (map e_prime es) (map e_sub es) ws fl = Ok (i, m') ->
  Wf m' /\ m_vt m' = m_vt m /\ vt_of (m_heap m') i = Some p /\ adds m m' 1 (length es) /\
  made (m_heap m') i (length es) (length es - 1) (fun k => In k (map e_prime es) \/ In k (map e_sub es)).
Proof.
  intros W HV NE D E. unfold GetConformedPsddDecisionNode, conformed_with in E.
  destruct es as [|e es]; [congruence|]. inversion D as [|? ? [V1 V2] D']; subst.
  cbn [map hd_error get bind] in E. rewrite V1, V2 in E. cbn [get bind] in E.
  rewrite (vlca_split [] [] p : vlca (false :: p) (true :: p) = p) in E.
  assert (forall b, vkid (m_vt m) p b = Some (b :: p)) as VK by (intros b; unfold vkid; rewrite HV; auto). rewrite !VK in E.
  pose proof (conform_loop_direct (get_true gt_fuel) p fl [] m (e :: es) D) as E1. cbn [map] in E1. rewrite E1 in E. cbn [bind] in E.
  unfold new_dec in E. bk E as es2 E2. injection E as E. change (mk_elems ws 0 (map e_prime (e :: es)) (map e_sub (e :: es)) = Ok es2) in E2.
  apply mk_elems_shape in E2 as [Q1 Q2].
  assert (LN : length es2 = length (e :: es)) by (apply (f_equal (@length _)) in Q1; rewrite !map_length in Q1; exact Q1).
  rewrite <- Q1, <- Q2, <- LN. eapply intern_dec_adds; eauto.
  - intros ->. discriminate.
  - clear - D Q1 Q2. unfold direct in *. revert Q1 Q2 D. generalize (e :: es). intros es0. revert es0. induction es2 as [|x es2 IH]; intros [|y es0] Q1 Q2 D; try discriminate; auto.
    cbn [map] in Q1, Q2. injection Q1 as Q1 Q1'. injection Q2 as Q2 Q2'. inversion D; subst. constructor; [rewrite Q1, Q2; auto|]. eapply IH; eauto.
Qed.

(** ** Multiply *)
Definition pair_of (e : (nat * nat * nat) * @mres P) : nat * nat := (snd (fst (fst e)), snd (fst e)).
Definition pw (h : heap) (x : nat * nat) : nat := width_at h (fst x) * width_at h (snd x).
Definition csum (h : heap) (K : @mcache P) : nat := list_sum (map (fun e => pw h (pair_of e)) K).
Lemma csum_app h K1 K2 : csum h (K1 ++ K2) = csum h K1 + csum h K2.
Proof. unfold csum. rewrite map_app, list_sum_app. reflexivity. Qed.
Section Fixed.
Context (root : vtree) (h0 : heap) (H0 : heap_ok root h0) (fl : N).
(** [k] is a result in the cache. *)
Definition resin (c : @mcache P) (k : nat) : Prop := exists key w, In (key, (Some k, w)) c.
Lemma resin_app K (c : @mcache P) k : resin c k -> resin (K ++ c) k.
Proof. intros (key & w & I). exists key, w. apply in_app_iff. auto. Qed.
(** The state during a multiplication of nodes of [h0]. *)
Record mst (m : mgr) (c : @mcache P) : Prop := {
  ms_wf : Wf m;
  ms_vt : m_vt m = root;
  ms_base : exists l, m_heap m = h0 ++ l;
  ms_nodup : NoDup (map pair_of c);
  ms_pos : forall pos i j r, In ((pos, i, j), r) c -> exists p, vt_of h0 i = Some p /\ pos = vpos root p;
  ms_made : forall pos i j k w, In ((pos, i, j), (Some k, w)) c -> made (m_heap m) k (pw h0 (i, j)) (pw h0 (i, j)) (resin c);
  ms_res : forall pos i j k w, In ((pos, i, j), (Some k, w)) c -> vt_of (m_heap m) k = vt_of h0 i;
}.
Definition grown (a b : nat) (m : mgr) (c : @mcache P) (m' : mgr) (c' : @mcache P) : Prop :=
  mst m' c' /\ exists K, c' = K ++ c /\ adds m m' (length K) (csum h0 K) /\
    Forall (fun e => reach h0 a (fst (pair_of e)) /\ reach h0 b (snd (pair_of e))) K.
Lemma mst_lt m c a : mst m c -> a < length h0 -> exists p, vt_of h0 a = Some p /\ vt_of (m_heap m) a = Some p.
Proof.
  intros S L. destruct (vt_of_get _ _ L) as (p & E). exists p. split; auto. destruct (ms_base _ _ S) as (l & ->). apply vt_of_app; auto.
Qed.
Lemma base_nth m c a nd : mst m c -> a < length h0 -> nth_error (m_heap m) a = Some nd -> nth_error h0 a = Some nd.
Proof. intros S L E. destruct (ms_base _ _ S) as (l & Q). rewrite Q, nth_error_app1 in E; auto. Qed.
Lemma alookup_none (k : nat * nat * nat) (c : @mcache P) : alookup key_eqb k c = None -> forall r, ~ In (k, r) c.
Proof.
  induction c as [|[k' r'] c IH]; simpl; intros E r; [tauto|]. destruct (key_eqb k k') eqn:Q; [discriminate|].
  intros [Z|Z]; [|eapply IH; eauto]. injection Z as -> ->. destruct k as [[x y] z]. unfold key_eqb in Q. rewrite !Nat.eqb_refl in Q. discriminate.
Qed.
(** Adding the entry of the two arguments. *)
Lemma close a b m c m' c1 K r m2 c2 p : mst m c -> a < length h0 -> vt_of h0 a = Some p ->
  alookup key_eqb (vpos root p, a, b) c = None ->
  mst m' c1 -> c1 = K ++ c -> adds m m' (length K) (csum h0 K) ->
  Forall (fun e => reach h0 a (fst (pair_of e)) /\ reach h0 b (snd (pair_of e))) K ->
  Forall (fun e => fst (pair_of e) < a) K ->
  Wf m2 -> m_vt m2 = m_vt m' -> adds m' m2 1 (pw h0 (a, b)) ->
  match fst r with Some k => vt_of (m_heap m2) k = Some p /\ made (m_heap m2) k (pw h0 (a, b)) (pw h0 (a, b)) (resin c1) | None => True end ->
  cache_update m2 c1 a b r = Ok c2 -> grown a b m c m2 c2 /\ (forall k, fst r = Some k -> resin c2 k).
Proof.
  intros S La Ea NL S1 EK AK RK SK W2 V2 A2 HV E. unfold cache_update in E. bk E as pos E1. unfold cache_pos in E1.
  bk E1 as q E2. bk E1 as u _. injection E1 as <-. injection E as <-.
  destruct A2 as (l2 & E2' & A2 & B2). destruct (ms_base _ _ S1) as (l1 & EB).
  assert (q = p) as ->. { rewrite E2', EB, (vt_of_app _ l2 _ _ (vt_of_app _ l1 _ _ Ea)) in E2. cbn in E2. congruence. }
  rewrite V2, (ms_vt _ _ S1). split; [|intros k Ek; exists (vpos root p, a, b), (snd r); left; destruct r as [o w0]; cbn [fst snd] in Ek |- *; rewrite Ek; reflexivity]. split.
  - split; auto.
    + rewrite V2. apply (ms_vt _ _ S1).
    + exists (l1 ++ l2). rewrite E2', EB, app_assoc. reflexivity.
    + cbn [map]. constructor; [|apply S1]. subst c1. rewrite map_app, in_app_iff. intros [I|I].
      * apply in_map_iff in I as (e & Q & I). rewrite Forall_forall in SK. apply SK in I. rewrite Q in I. cbn in I. lia.
      * apply in_map_iff in I as (e & Q & I). destruct e as [[[pos' i'] j'] r']. cbn in Q. injection Q as -> ->.
        destruct (ms_pos _ _ S _ _ _ _ I) as (p' & Ep & ->). assert (p' = p) as -> by congruence. apply (alookup_none _ _ NL _ I).
    + intros pos i j r' [Q|I]; [injection Q as <- <- <- <-; eauto|]. apply (ms_pos _ _ S1 _ _ _ _ I).
    + intros pos i j k w [Q|I].
      * injection Q as <- <- <- ->. simpl in HV. destruct HV as [_ HV]. eapply made_impl; [exact HV|lia|lia|]. intros x (key & w' & I). exists key, w'. right. auto.
      * pose proof (ms_made _ _ S1 _ _ _ _ _ I) as V. rewrite E2'. apply made_app. eapply made_impl; [exact V|lia|lia|]. intros x (key & w' & I'). exists key, w'. right. auto.
    + intros pos i j k w [Q|I].
      * injection Q as <- <- <- ->. simpl in HV. destruct HV as [HV _]. congruence.
      * pose proof (ms_res _ _ S1 _ _ _ _ _ I) as V. destruct (ms_pos _ _ S1 _ _ _ _ I) as (p' & Ep & _). rewrite Ep in *.
        rewrite E2'. apply vt_of_app. auto.
  - exists (((vpos root p, a, b), r) :: K). split; [subst c1; reflexivity|]. split.
    + assert (CS : csum h0 (((vpos root p, a, b), r) :: K) = pw h0 (a, b) + csum h0 K) by reflexivity. rewrite CS.
      eapply adds_le; [eapply adds_trans; [exact AK|exists l2; eauto]|cbn [length]; lia|lia].
    + constructor; auto. cbn. split; constructor.
Qed.
Lemma grown_refl a b m c : mst m c -> grown a b m c m c.
Proof. intros S. split; auto. exists []. split; auto. split; [apply adds_refl|constructor]. Qed.
Lemma direct_adds m m' n w p (es : list (elem P)) : adds m m' n w -> direct m p es -> direct m' p es.
Proof.
  intros (l & E & _) D. unfold direct in *. eapply Forall_impl; [|exact D]. simpl. intros e [A B]. rewrite E. split; apply vt_of_app; auto.
Qed.
(** What the loop over pairs of elements keeps. *)
Definition rec_ok (rec : nat -> nat -> mgr * @mcache P -> res (@mres P * (mgr * @mcache P))) : Prop :=
  forall a b m c r m' c', mst m c -> a < length h0 -> b < length h0 -> rec a b (m, c) = Ok (r, (m', c')) ->
  grown a b m c m' c' /\ match fst r with Some k => vt_of (m_heap m') k = vt_of h0 a /\ resin c' k | None => True end.
Lemma mul_fold_grown rec a b na nb ea eb : rec_ok rec -> nth_error h0 a = Some na -> n_body na = BDec ea -> nth_error h0 b = Some nb -> n_body nb = BDec eb ->
  forall L acc part m c acc' part' m' c', mst m c -> (forall x y, In (x, y) L -> In x ea /\ In y eb) -> direct m (n_vt na) acc -> Forall (fun e => resin c (e_prime e) /\ resin c (e_sub e)) acc ->
  foldM (mul_pair rec) L (acc, part, (m, c)) = Ok (acc', part', (m', c')) ->
  mst m' c' /\ direct m' (n_vt na) acc' /\ Forall (fun e => resin c' (e_prime e) /\ resin c' (e_sub e)) acc' /\ length acc' <= length acc + length L /\
  exists K, c' = K ++ c /\ adds m m' (length K) (csum h0 K) /\
    Forall (fun e => reach h0 a (fst (pair_of e)) /\ reach h0 b (snd (pair_of e))) K /\ Forall (fun e => fst (pair_of e) < a) K.
Proof.
  intros HR Ea Ba Eb Bb. pose proof (H0 _ _ Ea) as Oa. pose proof (H0 _ _ Eb) as Ob. unfold node_ok in Oa, Ob. rewrite Ba in Oa. rewrite Bb in Ob.
  destruct Oa as (_ & _ & Fa). destruct Ob as (_ & _ & Fb). rewrite Forall_forall in Fa, Fb.
  assert (LA : a < length h0) by (apply nth_error_Some; congruence). assert (LB : b < length h0) by (apply nth_error_Some; congruence).
  assert (RA : forall e, In e ea -> reach h0 a (e_prime e) /\ reach h0 a (e_sub e)).
  { intros e I. split; (eapply reach_step; [exact Ea| |apply reach_refl]); unfold children; rewrite Ba; apply in_app_iff; auto using in_map. }
  assert (RB : forall e, In e eb -> reach h0 b (e_prime e) /\ reach h0 b (e_sub e)).
  { intros e I. split; (eapply reach_step; [exact Eb| |apply reach_refl]); unfold children; rewrite Bb; apply in_app_iff; auto using in_map. }
  assert (SM : forall a1 b1 K, a1 < a -> Forall (fun e : (nat * nat * nat) * @mres P => reach h0 a1 (fst (pair_of e)) /\ reach h0 b1 (snd (pair_of e))) K -> Forall (fun e => fst (pair_of e) < a) K).
  { intros a1 b1 K L1 F. eapply Forall_impl; [|exact F]. simpl. intros e [X _]. apply (reach_le root) in X; auto. lia. }
  assert (ST : forall a1 b1 K, reach h0 a a1 -> reach h0 b b1 -> Forall (fun e : (nat * nat * nat) * @mres P => reach h0 a1 (fst (pair_of e)) /\ reach h0 b1 (snd (pair_of e))) K ->
     Forall (fun e => reach h0 a (fst (pair_of e)) /\ reach h0 b (snd (pair_of e))) K).
  { intros a1 b1 K X Y F. eapply Forall_impl; [|exact F]. simpl. intros e [Z1 Z2]. split; eapply reach_trans; eauto. }
  induction L as [|[x y] L IH]; intros acc part m c acc' part' m' c' S IL D RS E; cbn [foldM] in E.
  - injection E as <- <- <- <-. split; auto. split; auto. split; auto. split; [simpl; lia|]. exists []. split; auto. split; [apply adds_refl|]. split; constructor.
  - bk E as [[acc1 part1] [m1 c1]] E1. unfold mul_pair in E1.
    destruct (IL x y (or_introl eq_refl)) as [Ix Iy]. destruct (Fa x Ix) as (P1 & P2 & P3 & P4). destruct (Fb y Iy) as (Q1 & Q2 & Q3 & Q4).
    destruct (RA x Ix) as [RA1 RA2]. destruct (RB y Iy) as [RB1 RB2].
    assert (IL' : forall x y, In (x, y) L -> In x ea /\ In y eb) by (intros; apply IL; right; auto).
    bk E1 as [pr [m2 c2]] E2. apply HR in E2 as [(S2 & K2 & -> & A2 & F2) V2]; [|auto|lia|lia].
    destruct (fst pr) as [pi|].
    + bk E1 as [sr [m3 c3]] E3. apply HR in E3 as [(S3 & K3 & -> & A3 & F3) V3]; [|auto|lia|lia].
      assert (X : m1 = m3 /\ c1 = K3 ++ K2 ++ c /\ direct m3 (n_vt na) acc1 /\
        Forall (fun e => resin (K3 ++ K2 ++ c) (e_prime e) /\ resin (K3 ++ K2 ++ c) (e_sub e)) acc1 /\ length acc1 <= 1 + length acc).
      { pose proof (direct_adds _ _ _ _ _ _ A3 (direct_adds _ _ _ _ _ _ A2 D)) as D3.
        assert (RS3 : Forall (fun e => resin (K3 ++ K2 ++ c) (e_prime e) /\ resin (K3 ++ K2 ++ c) (e_sub e)) acc).
        { eapply Forall_impl; [|exact RS]. simpl. intros e [Z1 Z2]. split; do 2 apply resin_app; auto. }
        destruct (fst sr) as [si|]; injection E1 as <- <- <- <-; (do 2 (split; [reflexivity|])); [|split; [exact D3|split; [exact RS3|lia]]].
        rewrite app_length. simpl. destruct V2 as [V2 V2']. destruct V3 as [V3 V3']. split; [|split; [|lia]].
        - unfold direct in *. apply Forall_app. split; auto. constructor; auto. simpl.
          rewrite P3 in V2. rewrite P4 in V3. split; auto. destruct A3 as (l & -> & _). apply vt_of_app; auto.
        - apply Forall_app. split; auto. constructor; auto. simpl. split; auto. apply resin_app; auto. }
      destruct X as (-> & -> & D1 & RS1 & LN). apply IH in E as (S4 & D4 & RS4 & L4 & K4 & -> & A4 & F4 & G4); auto.
      split; auto. split; auto. split; auto. split; [simpl; lia|]. exists (K4 ++ K3 ++ K2). rewrite !app_assoc. split; auto. split; [|split].
      * rewrite !app_length, !csum_app. eapply adds_le; [eapply adds_trans; [exact A2|eapply adds_trans; [exact A3|exact A4]]|lia|lia].
      * rewrite <- app_assoc. apply Forall_app. split; auto. apply Forall_app. split; eauto.
      * rewrite <- app_assoc. apply Forall_app. split; auto. apply Forall_app. split; [apply (SM (e_sub x) (e_sub y)); auto|apply (SM (e_prime x) (e_prime y)); auto].
    + injection E1 as <- <- <- <-. apply IH in E as (S4 & D4 & RS4 & L4 & K4 & -> & A4 & F4 & G4); auto; [|eapply direct_adds; eauto|].
      2: { eapply Forall_impl; [|exact RS]. simpl. intros e [Z1 Z2]. split; apply resin_app; auto. }
      split; auto. split; auto. split; auto. split; [simpl; lia|]. exists (K4 ++ K2). rewrite !app_assoc. split; auto. split; [|split].
      * rewrite !app_length, !csum_app. eapply adds_le; [eapply adds_trans; [exact A2|exact A4]|lia|lia].
      * apply Forall_app. split; eauto.
      * apply Forall_app. split; auto. apply (SM (e_prime x) (e_prime y)); auto.
Qed.
Lemma multiply_grown fuel : rec_ok (multiply_with_cache fuel fl).
Proof.
  induction fuel as [|f IH]; intros a b m c r m' c' S La Lb E; cbn [multiply_with_cache] in E; [discriminate|].
  destruct (mst_lt m c a S La) as (p & Ep & Ep').
  bk E as pos E1. assert (pos = vpos root p) as ->.
  { unfold cache_pos in E1. rewrite Ep' in E1. cbn [get bind] in E1. bk E1 as u _. rewrite (ms_vt _ _ S) in E1. congruence. }
  destruct (alookup key_eqb (vpos root p, a, b) c) as [x|] eqn:EL.
  { injection E as <- <- <-. split; [apply grown_refl; auto|]. apply alookup_in in EL. destruct x as [[k|] w]; simpl; auto. split; [eapply ms_res; eauto|]. exists (vpos root p, a, b), w. auto. }
  bk E as na Ea. bk E as nb Eb. bk E as u _.
  destruct (nth_error (m_heap m) a) as [na'|] eqn:Na; [|discriminate]. injection Ea as ->. destruct (nth_error (m_heap m) b) as [nb'|] eqn:Nb; [|discriminate]. injection Eb as ->.
  apply (base_nth m c a _ S La) in Na. apply (base_nth m c b _ S Lb) in Nb.
  assert (p = n_vt na) as -> by (unfold vt_of in Ep; rewrite Na in Ep; simpl in Ep; congruence).
  pose proof (H0 _ _ Na) as Oa. pose proof (H0 _ _ Nb) as Ob. unfold node_ok in Oa, Ob. rewrite <- (ms_vt _ _ S) in Oa, Ob.
  assert (WA : width_at h0 a = width na) by (unfold width_at; rewrite Na; auto). assert (WB : width_at h0 b = width nb) by (unfold width_at; rewrite Nb; auto).
  assert (A0 : adds m m (length (@nil ((nat * nat * nat) * @mres P))) (csum h0 [])) by apply adds_refl.
  assert (LEAF : forall (r0 : @mres P) m2 c2, width na = 1 -> width nb = 1 -> Wf m2 -> m_vt m2 = m_vt m -> adds m m2 1 1 ->
     match fst r0 with Some k => vt_of (m_heap m2) k = Some (n_vt na) /\ made (m_heap m2) k 1 1 (fun _ => False) | None => True end -> cache_update m2 c a b r0 = Ok c2 ->
     grown a b m c m2 c2 /\ match fst r0 with Some k => vt_of (m_heap m2) k = vt_of h0 a /\ resin c2 k | None => True end).
  { intros r0 m2 c2 W1 W2 W3 W4 W5 W6 W7. assert (PW : pw h0 (a, b) = 1) by (unfold pw; cbn [fst snd]; rewrite WA, WB, W1, W2; reflexivity).
    destruct (close a b m c m c [] r0 m2 c2 (n_vt na)) as [G1 G2]; auto.
    - rewrite PW. exact W5.
    - rewrite PW. destruct (fst r0); auto. destruct W6 as [W6 W8]. split; auto. eapply made_impl; [exact W8|lia|lia|]. intros k0 [].
    - split; auto. destruct (fst r0); auto. rewrite Ep. destruct W6. auto. }
  destruct (n_body na) as [la|va ta fa|ea] eqn:Ba; destruct (n_body nb) as [lb|vb tb fb|eb] eqn:Bb; try discriminate.
  - bk E as u1 _. destruct (Z.eqb la lb).
    + bk E as [i m1] E2. destruct (literal_adds _ _ _ _ _ _ (ms_wf _ _ S) Oa E2) as (W1 & V1 & VT & A1 & M1). bk E as c2 E3. injection E as <- <- <-.
      eapply LEAF; [| | | | | |exact E3]; cbn [fst]; auto; try (unfold width; rewrite ?Ba, ?Bb; reflexivity); (split; [auto|eapply made_impl; [exact M1|lia|lia|auto]]).
    + bk E as c2 E3. injection E as <- <- <-. eapply LEAF; [| | | | | |exact E3]; cbn [fst]; auto; try (unfold width; rewrite ?Ba, ?Bb; reflexivity); [apply S|].
      eapply adds_le; [apply adds_refl|lia|lia].
  - bk E as u1 Q. bk E as [i m1] E2. destruct (literal_adds _ _ _ _ _ _ (ms_wf _ _ S) Oa E2) as (W1 & V1 & VT & A1 & M1). bk E as c2 E3. injection E as <- <- <-.
    eapply LEAF; [| | | | | |exact E3]; cbn [fst]; auto; try (unfold width; rewrite ?Ba, ?Bb; reflexivity); (split; [auto|eapply made_impl; [exact M1|lia|lia|auto]]).
  - bk E as u1 Q. unfold assert in Q. destruct (N.eqb_spec (lit_var lb) va) as [QE|]; [|discriminate]. rewrite <- QE in Oa.
    bk E as [i m1] E2. destruct (literal_adds _ _ _ _ _ _ (ms_wf _ _ S) Oa E2) as (W1 & V1 & VT & A1 & M1). bk E as c2 E3. injection E as <- <- <-.
    eapply LEAF; [| | | | | |exact E3]; cbn [fst]; auto; try (unfold width; rewrite ?Ba, ?Bb; reflexivity); (split; [auto|eapply made_impl; [exact M1|lia|lia|auto]]).
  - bk E as u1 _. bk E as [i m1] E2. destruct (top_adds _ _ _ _ _ _ _ _ (ms_wf _ _ S) Oa E2) as (W1 & V1 & VT & A1 & M1).
    bk E as nd _. destruct (n_body nd); try discriminate. bk E as u2 _. bk E as u3 _. bk E as c2 E3. injection E as <- <- <-.
    eapply LEAF; [| | | | | |exact E3]; cbn [fst]; auto; try (unfold width; rewrite ?Ba, ?Bb; reflexivity); (split; [auto|eapply made_impl; [exact M1|lia|lia|auto]]).
  - bk E as [[acc part] [m1 c1]] E2.
    destruct (mul_fold_grown _ a b na nb ea eb IH Na Ba Nb Bb (list_prod ea eb) [] pzero m c acc part m1 c1) as (S1 & D1 & RS & LN & K & EK & AK & RK & SK); auto.
    { intros x y I. apply in_prod_iff in I. auto. } { constructor. }
    rewrite prod_length in LN. cbn [length] in LN.
    destruct Oa as (_ & (vl & vr & SV) & _).
    destruct acc as [|e acc].
    + bk E as c2 E3. injection E as <- <- <-. cbn [fst]. split; auto.
      destruct (close a b m c m1 c1 K (None, pzero) m1 c2 (n_vt na)) as [G1 G2]; auto; [apply S1|eapply adds_le; [apply adds_refl|lia|lia]|exact Logic.I].
    + bk E as u1 _. bk E as [i m2] E4. set (es := map (fun e => MkE (e_prime e) (e_sub e) (pdiv (e_param e) part)) (e :: acc)).
      assert (X1 : map e_prime es = map e_prime (e :: acc)) by (unfold es; rewrite map_map; reflexivity).
      assert (X2 : map e_sub es = map e_sub (e :: acc)) by (unfold es; rewrite map_map; reflexivity).
      assert (X3 : map e_param es = map (fun e => pdiv (e_param e) part) (e :: acc)) by (unfold es; rewrite map_map; reflexivity).
      assert (X4 : length es = length (e :: acc)) by (unfold es; rewrite map_length; reflexivity).
      assert (RE : forall k, In k (map e_prime es) \/ In k (map e_sub es) -> resin c1 k).
      { rewrite X1, X2. rewrite Forall_forall in RS. intros k [I|I]; apply in_map_iff in I as (x & <- & I); apply RS in I; tauto. }
      assert (DE : direct m1 (n_vt na) es). { unfold direct, es. rewrite Forall_map. exact D1. }
      rewrite <- X1, <- X2, <- X3 in E4. rewrite (ms_vt _ _ S) in SV. rewrite <- (ms_vt _ _ S1) in SV.
      destruct (dec_adds m1 (n_vt na) vl vr es fl i m2 (ms_wf _ _ S1) SV) as (W2 & V2 & VT & A2 & M2); auto; [discriminate|].
      bk E as c2 E3. injection E as <- <- <-. cbn [fst]. rewrite Ep.
      assert (PW : length es <= pw h0 (a, b)). { unfold pw. cbn [fst snd]. rewrite WA, WB. unfold width. rewrite Ba, Bb. lia. }
      destruct (close a b m c m1 c1 K (Some i, part) m2 c2 (n_vt na)) as [G1 G2]; auto.
      * eapply adds_le; [exact A2|lia|lia].
      * cbn [fst]. split; auto. destruct M2 as (nd & N1 & N2). exists nd. split; auto. intros Z. destruct (N2 Z) as (Z1 & Z2 & Z3). split; [lia|]. split; [lia|auto].
Qed.
End Fixed.
Lemma sum_incl {A} (f : A -> nat) (l : list A) : NoDup l -> forall l', incl l l' -> list_sum (map f l) <= list_sum (map f l').
Proof.
  induction 1 as [|x l NI ND IH]; intros l' IN; [simpl; lia|].
  destruct (in_split x l' (IN x (or_introl eq_refl))) as (l1 & l2 & ->).
  assert (IN2 : incl l (l1 ++ l2)).
  { intros y Hy. assert (In y (l1 ++ x :: l2)) as Q by (apply IN; right; auto). apply in_app_iff in Q. apply in_app_iff. destruct Q as [Q|[Q|Q]]; auto. subst. tauto. }
  specialize (IH _ IN2). rewrite map_app, list_sum_app in *. cbn [map]. 
  replace (list_sum (f x :: map f l)) with (f x + list_sum (map f l)) by reflexivity. replace (list_sum (f x :: map f l2)) with (f x + list_sum (map f l2)) by reflexivity. lia.
Qed.
Lemma sum_prod (h : heap) La Lb : list_sum (map (pw h) (list_prod La Lb)) = list_sum (map (width_at h) La) * list_sum (map (width_at h) Lb).
Proof.
  induction La as [|a La IH]; auto. cbn [list_prod]. rewrite map_app, list_sum_app, IH. cbn [map].
  replace (list_sum (width_at h a :: map (width_at h) La)) with (width_at h a + list_sum (map (width_at h) La)) by reflexivity.
  rewrite Nat.mul_add_distr_r. f_equal. rewrite map_map. clear. induction Lb as [|b Lb IH]; [simpl; lia|]. cbn [map].
  replace (list_sum (pw h (a, b) :: map (fun x => pw h (a, x)) Lb)) with (pw h (a, b) + list_sum (map (fun x => pw h (a, x)) Lb)) by reflexivity.
  replace (list_sum (width_at h b :: map (width_at h) Lb)) with (width_at h b + list_sum (map (width_at h) Lb)) by reflexivity.
  rewrite IH. unfold pw. cbn [fst snd]. lia.
Qed.
(** Results of the entries of a cache. *)
Definition results (c : @mcache P) : list nat := flat_map (fun e => match fst (snd e) with Some k => [k] | None => [] end) c.
Lemma results_in c k : resin c k -> In k (results c).
Proof. intros (key & w & I). apply in_flat_map. exists (key, (Some k, w)). simpl. auto. Qed.
Lemma results_len c : length (results c) <= length c.
Proof. induction c as [|[key [[k|] w]] c IH]; simpl; lia. Qed.
Lemma results_sum (h h0 : heap) (f : node -> nat) (c : @mcache P) :
  (forall pos i j k w, In ((pos, i, j), (Some k, w)) c -> exists nd, nth_error h k = Some nd /\ f nd <= pw h0 (i, j)) ->
  list_sum (map (fun k => match nth_error h k with Some nd => f nd | None => 0 end) (results c)) <= csum h0 c.
Proof.
  induction c as [|[[[pos i] j] [[k|] w]] c IH]; intros H; [simpl; lia| |]; (assert (IH' := IH ltac:(intros; eapply H; right; eauto)));
    unfold csum in *; simpl; simpl in IH'; [|lia].
  destruct (H pos i j k w (or_introl eq_refl)) as (nd & E & F). rewrite E. unfold pair_of at 1. simpl in *. lia.
Qed.
Lemma node_size_width (nd : node) : node_size nd <= width nd.
Proof. unfold node_size, width. destruct (n_body nd); lia. Qed.
(** A product adds at most one node per pair of nodes, of total size at most the product of the sizes; and so is the result. *)
Theorem multiply_size m a b fl r m' La Lb : Wf m -> a < length (m_heap m) -> b < length (m_heap m) ->
  (forall i, In i La <-> reach (m_heap m) a i) -> (forall i, In i Lb <-> reach (m_heap m) b i) -> 
  Multiply m a b fl = Ok (r, m') ->
  let n := length La * length Lb in let w := list_sum (map (width_at (m_heap m)) La) * list_sum (map (width_at (m_heap m)) Lb) in
  adds m m' n w /\
  (shaped -> forall k L, fst r = Some k -> NoDup L -> (forall j, In j L -> reach (m_heap m') k j) ->
     length L <= n /\ list_sum (map (width_at (m_heap m')) L) <= w /\ list_sum (map (size_at (m_heap m')) L) <= w).
Proof.
  intros W LA LB IA IB E n w. unfold Multiply in E. bk E as [r1 [m1 c1]] E1. injection E as <- <-.
  destruct (multiply_grown (m_vt m) (m_heap m) (wf_heap _ W) fl (1 + a) a b m [] r1 m1 c1) as [(S1 & K & EK & A & F) RR]; auto.
  { split; [exact W|reflexivity|exists []; rewrite app_nil_r; auto|constructor|intros ? ? ? ? []|intros ? ? ? ? ? []|intros ? ? ? ? ? []]. }
  rewrite app_nil_r in EK. subst c1. pose proof (ms_nodup _ _ _ _ S1) as ND.
  assert (IN : incl (map pair_of K) (list_prod La Lb)).
  { intros [i j] I. apply in_map_iff in I as (e & Q & I). rewrite Forall_forall in F. destruct (F e I) as [R1 R2]. rewrite Q in R1, R2.
    apply in_prod_iff. rewrite IA, IB. auto. }
  assert (B1 : length K <= n).
  { pose proof (NoDup_incl_length ND IN) as LE. rewrite map_length, prod_length in LE. exact LE. }
  assert (B2 : csum (m_heap m) K <= w).
  { unfold csum, w. rewrite <- sum_prod. pose proof (sum_incl (pw (m_heap m)) _ ND _ IN) as LE. rewrite map_map in LE. exact LE. }
  split; [eapply adds_le; eauto|]. intros SH k L Ek NL HL. cbn [fst] in *. rewrite Ek in RR. destruct RR as [_ RK].
  assert (CL : forall x j, reach (m_heap m1) x j -> resin K x -> resin K j).
  { intros x j R. clear - S1 SH R. induction R as [|i nd c j E2 IC R IH]; auto. intros (key & w0 & I). apply IH. destruct key as [[pos i0] j0].
    destruct (ms_made _ _ _ _ S1 _ _ _ _ _ I) as (nd' & E3 & G). assert (nd' = nd) as -> by congruence. apply (G SH); auto. }
  assert (IL : incl L (results K)) by (intros j I; apply results_in, (CL k); auto).
  split; [|split].
  - pose proof (NoDup_incl_length NL IL). pose proof (results_len K). lia.
  - pose proof (sum_incl (width_at (m_heap m1)) _ NL _ IL) as Q1. pose proof (results_sum (m_heap m1) (m_heap m) width K) as Q2.
    unfold width_at in Q1 at 2. assert (Q3 : list_sum (map (fun k => match nth_error (m_heap m1) k with Some nd => width nd | None => 0 end) (results K)) <= csum (m_heap m) K).
    { apply Q2. intros pos i j k0 w0 I. destruct (ms_made _ _ _ _ S1 _ _ _ _ _ I) as (nd' & E3 & G). exists nd'. split; auto. apply (G SH). }
    lia.
  - pose proof (sum_incl (size_at (m_heap m1)) _ NL _ IL) as Q1. pose proof (results_sum (m_heap m1) (m_heap m) node_size K) as Q2.
    unfold size_at in Q1 at 2. assert (Q3 : list_sum (map (fun k => match nth_error (m_heap m1) k with Some nd => node_size nd | None => 0 end) (results K)) <= csum (m_heap m) K).
    { apply Q2. intros pos i j k0 w0 I. destruct (ms_made _ _ _ _ S1 _ _ _ _ _ I) as (nd' & E3 & G). exists nd'. split; auto. apply (G SH). }
    lia.
Qed.

(** ** Copies: LearnPsddParameters, SampleParameters and LoadPsddNode into the same vtree *)
Section Copy.
Context (root : vtree) (hs : heap) (H0 : heap_ok root hs) (fl : N).
Definition copied (D : list nat) (ud : udata) (m : mgr) (c : nat) : Prop :=
  exists j, ud c = Some j /\ vt_of (m_heap m) j = vt_of hs c /\ 
    made (m_heap m) j (width_at hs c) (size_at hs c) (fun k => exists c', In c' D /\ ud c' = Some k).
Lemma mapM_get (f : nat -> option nat) {A} (g : A -> nat) (l : list A) : forall r, mapM (fun e => get (f (g e))) l = Ok r -> map (fun e => f (g e)) l = map Some r.
Proof.
  induction l as [|x l IH]; intros r E; simpl in E; [injection E as <-; auto|]. bk E as y E1. bk E as ys E2. injection E as <-.
  simpl. destruct (f (g x)); [|discriminate]. injection E1 as ->. f_equal. auto.
Qed.
Lemma copy_step i ws D ud m ud' m' : Wf m -> m_vt m = root -> ~ In i D -> (forall nd c, nth_error hs i = Some nd -> In c (children nd) -> In c D) ->
  (forall c, In c D -> copied D ud m c) -> relab_step hs fl (ud, m) i ws = Ok (ud', m') ->
  Wf m' /\ m_vt m' = root /\ adds m m' 1 (width_at hs i) /\ (forall c, In c (i :: D) -> copied (i :: D) ud' m' c).
Proof.
  intros W V NI CH CP E. unfold relab_step, node_of in E. bk E as nd E1. destruct (nth_error hs i) as [nd'|] eqn:En; [|discriminate]. injection E1 as ->.
  pose proof (H0 _ _ En) as NO. unfold node_ok in NO. rewrite <- V in NO.
  assert (WN : width_at hs i = width nd) by (unfold width_at; rewrite En; auto). assert (SN : size_at hs i = node_size nd) by (unfold size_at; rewrite En; auto).
  assert (VN : vt_of hs i = Some (n_vt nd)) by (unfold vt_of; rewrite En; auto).
  assert (FIN : forall j m1, adds m m1 1 (width nd) -> vt_of (m_heap m1) j = Some (n_vt nd) -> 
     made (m_heap m1) j (width nd) (node_size nd) (fun k => exists c', In c' D /\ ud c' = Some k) ->
     forall c, In c (i :: D) -> copied (i :: D) (set_ud ud i (Some j)) m1 c).
  { assert (UP : forall j k, (exists c', In c' D /\ ud c' = Some k) -> exists c', In c' (i :: D) /\ set_ud ud i (Some j) c' = Some k).
    { intros j k (c' & I & U). exists c'. split; [right; auto|]. unfold set_ud. destruct (Nat.eqb_spec c' i); auto. subst. contradiction. }
    intros j m1 (l & A & _) VJ MJ c [<-|I].
    - exists j. unfold set_ud at 1. rewrite Nat.eqb_refl. split; auto. split; [congruence|]. rewrite WN, SN. eapply made_impl; [exact MJ|lia|lia|apply UP].
    - destruct (CP c I) as (j' & U & VC & MC). exists j'. split; [unfold set_ud; destruct (Nat.eqb_spec c i); auto; subst; contradiction|].
      destruct (vt_of hs c) as [q|] eqn:Q.
      + split; [rewrite A; apply vt_of_app; auto|]. rewrite A. apply made_app. eapply made_impl; [exact MC|lia|lia|apply UP].
      + exfalso. destruct MC as (n0 & N1 & _). unfold vt_of in VC. rewrite N1 in VC. discriminate. }
  rewrite WN. destruct (n_body nd) as [l|v a0 b0|es] eqn:Bn.
  - bk E as [j m1] E2. injection E as <- <-. destruct (literal_adds _ _ _ _ _ _ W NO E2) as (W1 & V1 & VT & A1 & M1).
    assert (Q : width nd = 1 /\ node_size nd = 0) by (unfold width, node_size; rewrite Bn; auto). destruct Q as [Q1 Q2]. rewrite Q1 in *.
    split; auto. split; [congruence|]. split; auto. apply FIN; auto. eapply made_impl; [exact M1|lia|lia|intros k []].
  - destruct ws as [|w1 [|w2 [|w3 ws]]]; try discriminate. bk E as [j m1] E2. injection E as <- <-.
    destruct (top_adds _ _ _ _ _ _ _ _ W NO E2) as (W1 & V1 & VT & A1 & M1).
    assert (Q : width nd = 1 /\ node_size nd = 1) by (unfold width, node_size; rewrite Bn; auto). destruct Q as [Q1 Q2]. rewrite Q1 in *.
    split; auto. split; [congruence|]. split; auto. apply FIN; auto. eapply made_impl; [exact M1|lia|lia|intros k []].
  - bk E as ps E1. bk E as ss E2. bk E as [j m1] E3. injection E as <- <-. destruct NO as (NE & (vl & vr & SV) & FE).
    pose proof (mapM_get _ e_prime _ _ E1) as G1. pose proof (mapM_get _ e_sub _ _ E2) as G2. clear E1 E2.
    assert (CH' : forall e, In e es -> copied D ud m (e_prime e) /\ copied D ud m (e_sub e)).
    { intros e I. split; apply CP; apply (CH nd); auto; unfold children; rewrite Bn; apply in_app_iff; auto using in_map. }
    set (es2 := map (fun x => MkE (fst x) (snd x) pzero) (combine ps ss) : list (elem P)).
    assert (X : map e_prime es2 = ps /\ map e_sub es2 = ss /\ direct m (n_vt nd) es2 /\ length es2 = length es /\
      (forall k, In k ps \/ In k ss -> exists c', In c' D /\ ud c' = Some k)).
    { assert (CHD : forall e, In e es -> In (e_prime e) D /\ In (e_sub e) D) by (intros e I; split; apply (CH nd); auto; unfold children; rewrite Bn; apply in_app_iff; auto using in_map).
      clear - G1 G2 CH' CHD FE. unfold es2. clear es2. revert ps ss G1 G2. induction es as [|e es IH]; intros [|p ps] [|s ss] G1 G2; try discriminate.
      - simpl. repeat split; auto. constructor. intros k [[]|[]].
      - cbn [map] in G1, G2. injection G1 as G1 G1'. injection G2 as G2 G2'. inversion FE as [|? ? (_ & _ & F1 & F2) FE']; subst.
        destruct (IH FE' (fun e I => CH' e (or_intror I)) (fun e I => CHD e (or_intror I)) ps ss G1' G2') as (A & B & C & L & K).
        destruct (CH' e (or_introl eq_refl)) as ((j1 & U1 & V1 & _) & (j2 & U2 & V2 & _)). destruct (CHD e (or_introl eq_refl)) as [I1 I2].
        cbn [combine map fst snd e_prime e_sub]. rewrite A, B. repeat split; auto.
        + constructor; auto. cbn [e_prime e_sub]. split; congruence.
        + simpl. congruence.
        + intros k [[<-|I]|[<-|I]]; eauto; apply K; auto. }
    destruct X as (X1 & X2 & X3 & X4 & X5). rewrite <- X1, <- X2 in E3.
    destruct (dec_adds_any m (n_vt nd) vl vr es2 ws fl j m1 W SV) as (W1 & V1 & VT & A1 & M1); auto.
    { intros Z. apply NE. rewrite Z in X4. destruct es; auto; discriminate. }
    rewrite X4 in A1, M1. assert (Q : width nd = length es /\ node_size nd = length es - 1) by (unfold width, node_size; rewrite Bn; auto). destruct Q as [Q1 Q2]. rewrite Q1 in *.
    split; auto. split; [congruence|]. split; auto. apply FIN; auto. rewrite Q2. eapply made_impl; [exact M1|lia|lia|]. rewrite X1, X2. auto.
Qed.
(** A pass that copies the nodes of a serialization in reverse. *)
Lemma copy_pass {ST} (F : ST -> nat -> res ST) (um : ST -> udata * mgr) :
  (forall st i st', F st i = Ok st' -> exists ws, relab_step hs fl (um st) i ws = Ok (um st')) ->
  forall L, NoDup L -> parent_first hs L -> forall st st', Wf (snd (um st)) -> m_vt (snd (um st)) = root -> foldM F (rev L) st = Ok st' ->
  Wf (snd (um st')) /\ m_vt (snd (um st')) = root /\ adds (snd (um st)) (snd (um st')) (length L) (list_sum (map (width_at hs) L)) /\
  (forall c, In c L -> copied L (fst (um st')) (snd (um st')) c).
Proof.
  intros HF. induction L as [|i L IH]; intros ND PF st st' W V E.
  - cbn in E. injection E as <-. split; auto. split; auto. split; [apply adds_refl|intros c []].
  - cbn [rev] in E. rewrite foldM_app in E. bk E as st1 E1. cbn [foldM] in E. bk E as st2 E2. injection E as <-. apply NoDup_cons_iff in ND as [NI ND'].
    assert (PF' : parent_first hs L). { intros L1 j L2 Q. apply (PF (i :: L1)). rewrite Q. reflexivity. }
    destruct (IH ND' PF' st st1 W V E1) as (W1 & V1 & A1 & C1). apply HF in E2 as (ws & E2).
    destruct (um st1) as [ud1 m1]. destruct (um st2) as [ud2 m2]. cbn [fst snd] in *.
    destruct (copy_step i ws L ud1 m1 ud2 m2) as (W2 & V2 & A2 & C2); auto.
    { intros nd c En I. apply (PF [] i L eq_refl nd c En I). }
    split; auto. split; auto. split; auto. cbn [length map]. change (list_sum (width_at hs i :: map (width_at hs) L)) with (width_at hs i + list_sum (map (width_at hs) L)).
    eapply adds_le; [eapply adds_trans; [exact A1|exact A2]|lia|lia].
Qed.
Lemma copied_size L ud m r j : shaped -> (forall c, In c L -> copied L ud m c) -> In r L -> ud r = Some j ->
  forall L', NoDup L' -> (forall k, In k L' -> reach (m_heap m) j k) ->
  length L' <= length L /\ list_sum (map (width_at (m_heap m)) L') <= list_sum (map (width_at hs) L) /\ list_sum (map (size_at (m_heap m)) L') <= list_sum (map (size_at hs) L).
Proof.
  intros SH CP Ir Uj L' NL HL.
  assert (CL : forall x k, reach (m_heap m) x k -> (exists c, In c L /\ ud c = Some x) -> exists c, In c L /\ ud c = Some k).
  { intros x k R. clear - CP SH R. induction R as [|i nd c j E2 IC R IH]; auto. intros (c0 & I & U). apply IH.
    destruct (CP c0 I) as (j' & U' & _ & nd' & E3 & G). assert (j' = i) as -> by congruence. assert (nd' = nd) as -> by congruence. apply (G SH); auto. }
  set (im := map (fun c => match ud c with Some k => k | None => 0 end) L).
  assert (IL : incl L' im).
  { intros k I. destruct (CL j k (HL k I)) as (c & Ic & U); eauto. unfold im. apply in_map_iff. exists c. rewrite U. auto. }
  assert (SUM : forall (f : heap -> nat -> nat), (forall c, In c L -> exists k, ud c = Some k /\ f (m_heap m) k <= f hs c) -> list_sum (map (f (m_heap m)) im) <= list_sum (map (f hs) L)).
  { intros f HF. unfold im. clear - HF. induction L as [|c L IH]; [simpl; lia|]. destruct (HF c (or_introl eq_refl)) as (k & U & Q).
    cbn [map]. rewrite U. specialize (IH (fun c I => HF c (or_intror I))).
    change (f (m_heap m) k + list_sum (map (f (m_heap m)) (map (fun c => match ud c with Some k => k | None => 0 end) L)) <= f hs c + list_sum (map (f hs) L)). lia. }
  split; [|split].
  - pose proof (NoDup_incl_length NL IL) as Q. unfold im in Q. rewrite map_length in Q. exact Q.
  - etransitivity; [apply (sum_incl (width_at (m_heap m)) _ NL _ IL)|]. apply (SUM width_at). intros c I.
    destruct (CP c I) as (k & U & _ & nd & E & G). exists k. split; auto. unfold width_at at 1. rewrite E. apply (G SH).
  - etransitivity; [apply (sum_incl (size_at (m_heap m)) _ NL _ IL)|]. apply (SUM size_at). intros c I.
    destruct (CP c I) as (k & U & _ & nd & E & G). exists k. split; auto. unfold size_at at 1. rewrite E. apply (G SH).
Qed.
End Copy.

(** ** In terms of SerializePsddNodes and GetPsddSize *)
(** Any two parameters compare, as finite ones do. *)
Definition total : Prop := (forall a b : P, peq a b = peq b a) /\ (forall a b : P, plt a b = false -> plt b a = false -> peq a b = true).
Lemma total_shaped : total -> shaped.
Proof.
  intros [TS T].
  assert (EL : forall l1 l2 : list (elem P), elems_less l1 l2 = false -> elems_less l2 l1 = false -> map e_prime l1 = map e_prime l2 /\ map e_sub l1 = map e_sub l2).
  { induction l1 as [|e l1 IH]; intros [|e' l2] H1 H2; simpl in *; try discriminate; auto.
    rewrite (Nat.eqb_sym (e_prime e') (e_prime e)), (Nat.eqb_sym (e_sub e') (e_sub e)), (TS (e_param e') (e_param e)) in H2.
    destruct (Nat.eqb_spec (e_prime e) (e_prime e')) as [E1|E1]; cbn [negb] in *; [|apply Nat.ltb_ge in H1, H2; lia].
    destruct (Nat.eqb_spec (e_sub e) (e_sub e')) as [E2|E2]; cbn [negb] in *; [|apply Nat.ltb_ge in H1, H2; lia].
    destruct (peq (e_param e) (e_param e')) eqn:Q1; cbn [negb] in *.
    - destruct (IH l2 H1 H2) as [-> ->]. rewrite E1, E2. auto.
    - pose proof (T _ _ H1 H2). congruence. }
  intros a b ea eb E Ba Bb. pose proof (equiv_flag a b E) as F. unfold equiv, node_less in E.
  rewrite F, N.eqb_refl, Ba, Bb in E. cbn [negb] in E. apply andb_true_iff in E as [H1 H2]. apply negb_true_iff in H1, H2. auto.
Qed.
Lemma width_size (h : heap) root L : heap_ok root h -> list_sum (map (width_at h) L) <= list_sum (map (size_at h) L) + length L.
Proof.
  intros H. induction L as [|i L IH]; [simpl; lia|]. cbn [map length].
  change (width_at h i + list_sum (map (width_at h) L) <= size_at h i + list_sum (map (size_at h) L) + S (length L)).
  assert (width_at h i <= size_at h i + 1); [|lia]. unfold width_at, size_at, width, node_size. destruct (nth_error h i) as [nd|]; [|lia]. destruct (n_body nd); lia.
Qed.
Lemma sized root (h : heap) i L z : heap_ok root h -> i < length h -> SerializePsddNodes h [i] = Ok L -> GetPsddSize h i = Ok z ->
  ser_of h i L /\ z = list_sum (map (size_at h) L).
Proof.
  intros H Hi' E1 E2. destruct (psdd_size_spec root h i H Hi') as (L' & S & E3). pose proof (so_eq _ _ _ S) as E4. assert (L' = L) as -> by congruence.
  split; auto. congruence.
Qed.
Theorem multiply_sizes m a b fl r m' La Lb za zb : Wf m -> a < length (m_heap m) -> b < length (m_heap m) ->
  SerializePsddNodes (m_heap m) [a] = Ok La -> GetPsddSize (m_heap m) a = Ok za ->
  SerializePsddNodes (m_heap m) [b] = Ok Lb -> GetPsddSize (m_heap m) b = Ok zb ->
  Multiply m a b fl = Ok (r, m') ->
  adds m m' (length La * length Lb) ((za + length La) * (zb + length Lb)) /\
  (total -> forall k L z, fst r = Some k -> SerializePsddNodes (m_heap m') [k] = Ok L -> GetPsddSize (m_heap m') k = Ok z ->
     length L <= length La * length Lb /\ z <= (za + length La) * (zb + length Lb)).
Proof.
  intros W LA LB SA ZA SB ZB E. destruct (sized _ _ _ _ _ (wf_heap _ W) LA SA ZA) as [OA QA]. destruct (sized _ _ _ _ _ (wf_heap _ W) LB SB ZB) as [OB QB].
  destruct (multiply_size m a b fl r m' La Lb W LA LB (so_in _ _ _ OA) (so_in _ _ _ OB) E) as [A B].
  assert (LE : list_sum (map (width_at (m_heap m)) La) * list_sum (map (width_at (m_heap m)) Lb) <= (za + length La) * (zb + length Lb)).
  { apply Nat.mul_le_mono; [rewrite QA|rewrite QB]; eapply width_size; apply W. }
  split; [eapply adds_le; eauto|]. intros T k L z Ek SK ZK. destruct (multiply_wf Hr Hi m a b fl r m' W E) as [W' _].
  assert (LK : k < length (m_heap m')).
  { destruct (Nat.lt_ge_cases k (length (m_heap m'))) as [|G]; auto. exfalso. unfold Multiply in E. bk E as [r1 [m1 c1]] E1. injection E as <- <-. cbn [fst] in *.
    destruct (multiply_grown (m_vt m) (m_heap m) (wf_heap _ W) fl (1 + a) a b m [] r1 m1 c1) as [_ RR]; auto.
    { split; [exact W|reflexivity|exists []; rewrite app_nil_r; auto|constructor|intros ? ? ? ? []|intros ? ? ? ? ? []|intros ? ? ? ? ? []]. }
    rewrite Ek in RR. destruct RR as [V _]. destruct (vt_of_get (m_heap m) a LA) as (p & Ep). rewrite Ep in V. apply vt_of_lt in V. lia. }
  destruct (sized _ _ _ _ _ (wf_heap _ W') LK SK ZK) as [OK QK].
  destruct (B (total_shaped T) k L Ek (so_nodup _ _ _ OK)) as (B1 & B2 & B3). { intros j I. apply (so_in _ _ _ OK). auto. }
  split; auto. lia.
Qed.
(** A copy has at most as many nodes and at most the size. *)
Theorem copy_sizes {ST} hs fl (F : ST -> nat -> res ST) (um : ST -> udata * mgr) st st' root L z :
  (forall st i st', F st i = Ok st' -> exists ws, relab_step hs fl (um st) i ws = Ok (um st')) ->
  Wf (snd (um st)) -> heap_ok (m_vt (snd (um st))) hs -> root < length hs -> SerializePsddNodes hs [root] = Ok L -> GetPsddSize hs root = Ok z ->
  foldM F (rev L) st = Ok st' ->
  Wf (snd (um st')) /\ adds (snd (um st)) (snd (um st')) (length L) (z + length L) /\
  (exists j, fst (um st') root = Some j /\ vt_of (m_heap (snd (um st'))) j = vt_of hs root) /\
  (total -> forall k L' z', fst (um st') root = Some k -> SerializePsddNodes (m_heap (snd (um st'))) [k] = Ok L' -> GetPsddSize (m_heap (snd (um st'))) k = Ok z' ->
     length L' <= length L /\ z' <= z).
Proof.
  intros HF W HO LR SR ZR E. destruct (sized _ _ _ _ _ HO LR SR ZR) as [OR QR].
  destruct (copy_pass (m_vt (snd (um st))) hs HO fl F um HF L (so_nodup _ _ _ OR) (so_topo _ _ _ OR) st st' W eq_refl E) as (W1 & V1 & A1 & C1).
  pose proof (so_head _ _ _ OR) as (L0 & EL). assert (IR : In root L) by (rewrite EL; left; auto).
  split; auto. split; [eapply adds_le; [exact A1|lia|rewrite QR; eapply width_size; eauto]|].
  split. { destruct (C1 root IR) as (j & U & V & _). eauto. }
  intros T k L' z' Ek SK ZK. destruct (C1 root IR) as (j & U & V & (nd & En & _)). assert (j = k) as -> by congruence.
  assert (LK : k < length (m_heap (snd (um st')))) by (apply nth_error_Some; congruence).
  destruct (sized _ _ _ _ _ (wf_heap _ W1) LK SK ZK) as [OK QK].
  destruct (copied_size hs L (fst (um st')) (snd (um st')) root k (total_shaped T) C1 IR U L' (so_nodup _ _ _ OK)) as (B1 & B2 & B3). { intros c I. apply (so_in _ _ _ OK). auto. }
  split; auto. lia.
Qed.
Theorem learn_sizes m hs ud dc root ex n alpha fl r ud' dc' m' L z : Wf m -> heap_ok (m_vt m) hs -> root < length hs ->
  SerializePsddNodes hs [root] = Ok L -> GetPsddSize hs root = Ok z ->
  LearnPsddParameters hs ud dc root ex n alpha fl m = Ok (r, ud', dc', m') ->
  adds m m' (length L) (z + length L) /\
  (total -> forall L' z', SerializePsddNodes (m_heap m') [r] = Ok L' -> GetPsddSize (m_heap m') r = Ok z' -> length L' <= length L /\ z' <= z).
Proof.
  intros W HO LR SR ZR E. unfold LearnPsddParameters in E. rewrite SR in E. cbn [bind] in E. bk E as dc1 _. bk E as [ud1 m1] E1. bk E as r1 E2. injection E as <- _ _ <-.
  destruct (copy_sizes hs fl (learn_step hs dc1 alpha fl) (fun x => x) (ud, m) (ud1, m1) root L z) as (_ & A & _ & B); auto.
  - intros st i st' Q. unfold learn_step in Q. bk Q as nd _. bk Q as ws _. eauto.
  - cbn [fst snd] in *. split; auto. intros T L' z' SK ZK. apply (B T r1); auto. destruct (ud1 root); [|discriminate]. cbn in E2. congruence.
Qed.
Theorem sample_sizes (G : dops P) near1 m hs ud root fl us r us' ud' m' L z : Wf m -> heap_ok (m_vt m) hs -> root < length hs ->
  SerializePsddNodes hs [root] = Ok L -> GetPsddSize hs root = Ok z ->
  SampleParameters G near1 hs ud root fl us m = Ok (r, us', ud', m') ->
  adds m m' (length L) (z + length L) /\
  (total -> forall L' z', SerializePsddNodes (m_heap m') [r] = Ok L' -> GetPsddSize (m_heap m') r = Ok z' -> length L' <= length L /\ z' <= z).
Proof.
  intros W HO LR SR ZR E. unfold SampleParameters in E. bk E as [[[rs s1] ud1] m1] E1. bk E as r1 E2. injection E as <- _ _ <-.
  unfold SampleParametersForMultiplePsdds in E1. rewrite SR in E1. cbn [bind] in E1. bk E1 as [s2 [ud2 m2]] E3. bk E1 as rs1 E4. injection E1 as <- _ _ <-.
  destruct (copy_sizes hs fl (sample_step G near1 hs fl) snd (us, (ud, m)) (s2, (ud2, m2)) root L z) as (_ & A & _ & B); auto.
  - intros st i st' Q. unfold sample_step in Q. bk Q as nd _. bk Q as [ws s3] _. bk Q as um Q2. injection Q as <-. eauto.
  - cbn [fst snd] in *. split; auto. intros T L' z' SK ZK. apply (B T r1); auto. cbn in E4. destruct (ud2 root); [|discriminate]. cbn in E4. injection E4 as <-. cbn in E2. congruence.
Qed.
Theorem load_sizes m hs ud root fl r ud' m' L z p : Wf m -> heap_ok (m_vt m) hs -> vt_of hs root = Some p ->
  SerializePsddNodes hs [root] = Ok L -> GetPsddSize hs root = Ok z ->
  LoadPsddNode hs ud (Some p) root fl m = Ok (r, ud', m') ->
  adds m m' (length L) (z + length L) /\
  (total -> forall L' z', SerializePsddNodes (m_heap m') [r] = Ok L' -> GetPsddSize (m_heap m') r = Ok z' -> length L' <= length L /\ z' <= z).
Proof.
  intros W HO VR SR ZR E. pose proof (vt_of_lt _ _ _ VR) as LR. unfold LoadPsddNode in E. rewrite SR in E. cbn [bind] in E.
  bk E as [ud1 m1] E1. bk E as r1 E2. bk E as [j m2] E3. injection E as <- _ <-.
  destruct (copy_sizes hs fl (load_step hs fl) (fun x => x) (ud, m) (ud1, m1) root L z) as (W1 & A & (j' & U & V) & B); auto.
  - intros [u0 m0] i st' Q. unfold load_step in Q. unfold relab_step, node_of. destruct (nth_error hs i) as [nd|]; [|discriminate]. cbn [get bind] in *.
    destruct (n_body nd) as [l|v a b|es]; [exists []|exists [a; b]|exists (map e_param es)]; auto.
  - cbn [fst snd] in *. rewrite U in E2. cbn in E2. injection E2 as <-. unfold NormalizePsddNode in E3. rewrite VR in V. rewrite (normalize_id _ _ _ _ _ _ V) in E3.
    cbn in E3. injection E3 as <- <-. split; auto. intros T L' z' Q1 Q2. apply (B T j' L' z' U Q1 Q2).
Qed.
(** GetTrueNode adds at most one node per vtree node. *)
Lemma true_fold_adds f fl L : forall tm m tm' m', Wf m -> tm_wf tm m -> Forall (fun x => subtree (m_vt m) (fst x) = Some (snd x)) L ->
  foldM (true_step (get_true f) fl) L (tm, m) = Ok (tm', m') -> adds m m' (length L) (length L).
Proof.
  induction L as [|[p t] L IH]; intros tm m tm' m' W T F E; cbn [foldM] in E.
  - injection E as <- <-. apply adds_refl.
  - bk E as [tm1 m1] E1. inversion F as [|? ? F1 F2]; subst. cbn [fst snd] in F1.
    destruct (true_step_wf Hr Hi _ (get_true_wf Hr Hi f) fl tm m p t tm1 m1 W T F1 E1) as (W1 & X1 & T1).
    assert (A1 : adds m m1 1 1).
    { unfold true_step in E1. destruct t as [v|l r].
      - bk E1 as [i m2] Et. injection E1 as _ <-. eapply top_adds; eauto.
      - destruct (nlookup (vpos (m_vt m) (false :: p)) tm) as [li|] eqn:El; [|discriminate].
        destruct (nlookup (vpos (m_vt m) (true :: p)) tm) as [ri|] eqn:Er; [|discriminate].
        bk E1 as [i m2] Et. injection E1 as _ <-.
        destruct (T _ _ El) as (pl & sl & A1 & A2 & A3). destruct (T _ _ Er) as (pr & sr & B1 & B2 & B3).
        assert (pl = false :: p) as ->. { apply (vpos_inj (m_vt m) _ _ sl l); auto. simpl. rewrite F1. reflexivity. }
        assert (pr = true :: p) as ->. { apply (vpos_inj (m_vt m) _ _ sr r); auto. simpl. rewrite F1. reflexivity. }
        set (es := [MkE li ri pone] : list (elem P)). assert (D : direct m p es) by (constructor; [cbn; auto|constructor]).
        unfold conformed_with in Et. cbn [hd_error get bind] in Et. rewrite A3, B3 in Et. cbn [get bind] in Et.
        rewrite (vlca_split [] [] p : vlca (false :: p) (true :: p) = p) in Et.
        assert (forall b, vkid (m_vt m) p b = Some (b :: p)) as VK by (intros b; unfold vkid; rewrite F1; auto). rewrite !VK in Et.
        pose proof (conform_loop_direct (get_true f) p fl [] m es D) as E1. cbn [es map e_prime e_sub] in E1. rewrite E1 in Et. cbn [bind] in Et.
        unfold new_dec in Et. cbn [mk_elems param_at nth_error get bind] in Et.
        assert (Et' : GetUniqueNode m (MkN p fl (BDec (sort_elems es))) = (i, m2)) by (unfold es; congruence).
        destruct (intern_dec_adds m p l r es fl i m2 W F1 ltac:(discriminate) D Et') as (_ & _ & _ & Q & _). exact Q. }
    eapply adds_le; [eapply adds_trans; [exact A1|eapply (IH tm1 m1); eauto]| |]; cbn [length]; try lia.
    rewrite (me_vt _ _ _ X1). exact F2.
Qed.
Lemma get_true_S f target fl tm (m : mgr) : get_true (S f) target fl tm m =
  match nlookup (vpos (m_vt m) target) tm with
  | Some i => Ok (i, tm, m)
  | None =>
      do t <- get (subtree (m_vt m) target) ;;
      do ser <- SerializeVtree target t ;;
      do (tm1, m1) <- foldM (true_step (get_true f) fl) (rev ser) (tm, m) ;;
      match nlookup (vpos (m_vt m) target) tm1 with
      | Some i => Ok (i, tm1, m1)
      | None => Abort
      end
  end.
Proof. reflexivity. Qed.
Theorem true_size m p s fl i m' : Wf m -> subtree (m_vt m) p = Some s -> GetTrueNode p fl m = Ok (i, m') -> adds m m' (vsize s) (vsize s).
Proof.
  intros W S E. unfold GetTrueNode in E. bk E as [[j tm] m1] E1. injection E as <- <-. unfold gt_fuel in E1. rewrite get_true_S in E1.
  change (nlookup (vpos (m_vt m) p) []) with (@None nat) in E1. cbv iota in E1. rewrite S in E1. cbn [get bind] in E1. bk E1 as ser E2. bk E1 as [tm1 m2] E3.
  destruct (nlookup (vpos (m_vt m) p) tm1); [|discriminate]. injection E1 as _ _ <-.
  assert (LN : length (rev ser) = vsize s).
  { destruct (serialize_vtree_spec p s) as (L & E4 & PM & _). assert (L = ser) as -> by congruence. rewrite rev_length, (Permutation_length PM).
    clear. revert p. induction s as [v|l IHl r IHr]; intros p; simpl; auto. rewrite app_length, IHl, IHr. lia. }
  rewrite <- LN. eapply true_fold_adds; [exact W|apply tm_wf_nil| |exact E3]. apply Forall_rev. eapply ser_subtrees; eauto.
Qed.
End Size.
