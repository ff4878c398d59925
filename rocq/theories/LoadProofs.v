(** LoadPsddNode (C26). *)
From Coq Require Import Reals Lra.
From Verif Require Import Base Param Vtree VtreeProofs Spec SpecProofs Heap Manager HeapProofs SerProofs RepProofs.

(** ** Generic bottom-up pass *)
Lemma bottom_up {S} (step : S -> nat -> res S) (I : list nat -> S -> Prop) (L : list nat) s0 :
  (forall L1 i L2 s, L = L1 ++ i :: L2 -> I L2 s -> exists s', step s i = Ok s' /\ I (i :: L2) s') ->
  I [] s0 -> exists s', foldM step (rev L) s0 = Ok s' /\ I L s'.
Proof.
  intros HS H0.
  assert (forall L2 L1 s, L = L1 ++ L2 -> foldM step (rev L2) s0 = Ok s -> I L2 s ->
            exists s', foldM step (rev L) s0 = Ok s' /\ I L s') as K.
  { intros L2 L1. revert L2. induction L1 as [|i L1 IH] using rev_ind; intros L2 s EL EF HI.
    - simpl in EL. subst. eauto.
    - rewrite <- app_assoc in EL. simpl in EL. destruct (HS L1 i L2 s EL HI) as (s' & E' & HI').
      apply (IH (i :: L2) s'); auto. simpl. rewrite foldM_app, EF. simpl. rewrite E'. reflexivity. }
  apply (K [] L s0); auto. rewrite app_nil_r. auto.
Qed.
Lemma top_down {S} (step : S -> nat -> res S) (I : list nat -> S -> Prop) (L : list nat) s0 :
  (forall L1 i L2 s, L = L1 ++ i :: L2 -> I L1 s -> exists s', step s i = Ok s' /\ I (L1 ++ [i]) s') ->
  I [] s0 -> exists s', foldM step L s0 = Ok s' /\ I L s'.
Proof.
  intros HS H0.
  assert (forall L2 L1 s, L = L1 ++ L2 -> foldM step L1 s0 = Ok s -> I L1 s ->
            exists s', foldM step L s0 = Ok s' /\ I L s') as K.
  { induction L2 as [|i L2 IH]; intros L1 s EL EF HI.
    - rewrite app_nil_r in EL. subst. eauto.
    - destruct (HS L1 i L2 s EL HI) as (s' & E' & HI').
      apply (IH (L1 ++ [i]) s'); auto.
      + rewrite <- app_assoc. auto.
      + rewrite foldM_app, EF. simpl. rewrite E'. reflexivity. }
  apply (K L [] s0); auto.
Qed.

(** ** Embedding of a vtree into another: [emb d s p] maps the root of s to the node p of d; left (right) descendants
    stay left (right). *)
Inductive emb (d : vtree) : vtree -> path -> Prop :=
| emb_leaf v p : subtree d p = Some (Leaf v) -> emb d (Leaf v) p
| emb_node l r p u w : emb d l (u ++ false :: p) -> emb d r (w ++ true :: p) -> emb d (VNode l r) p.

Lemma emb_self d s : forall p, subtree d p = Some s -> emb d s p.
Proof.
  induction s as [v|l IHl r IHr]; intros p H; [constructor; auto|].
  apply (emb_node d l r p [] []); simpl.
  - apply IHl. simpl. rewrite H. reflexivity.
  - apply IHr. simpl. rewrite H. reflexivity.
Qed.
Lemma leaf_paths_eq d p q v : NoDup (leaves d) -> subtree d p = Some (Leaf v) -> subtree d q = Some (Leaf v) -> p = q.
Proof.
  intros ND H1 H2. apply leaf_path_unique in H1, H2; auto. congruence.
Qed.
Lemma emb_fun d s : NoDup (leaves d) -> forall p q, emb d s p -> emb d s q -> p = q.
Proof.
  intros ND. induction s as [v|l IHl r IHr]; intros p q H1 H2; inversion H1; inversion H2; subst.
  - eapply leaf_paths_eq; eauto.
  - assert (u ++ false :: p = u0 ++ false :: q) as E1 by (apply IHl; auto).
    assert (w ++ true :: p = w0 ++ true :: q) as E2 by (apply IHr; auto).
    rewrite <- (vlca_split u w p), <- (vlca_split u0 w0 q), E1, E2. reflexivity.
Qed.
Lemma subtree_suffix d u : forall p s, subtree d (u ++ p) = Some s -> exists s', subtree d p = Some s'.
Proof.
  induction u as [|b u IH]; intros p s H; simpl in H; eauto.
  destruct (subtree d (u ++ p)) as [[?|? ?]|] eqn:E; try discriminate. eauto.
Qed.
Lemma emb_valid d s : forall p, emb d s p -> match s with
  | Leaf v => subtree d p = Some (Leaf v)
  | VNode _ _ => exists l r, subtree d p = Some (VNode l r) end.
Proof.
  induction s as [v|l IHl r IHr]; intros p H; inversion H; subst; auto.
  assert (exists s', subtree d (u ++ false :: p) = Some s') as [s' E].
  { apply IHl in H2. destruct l; [eauto|]. destruct H2 as (? & ? & ?); eauto. }
  apply subtree_suffix in E as [s'' E]. simpl in E. destruct (subtree d p) as [[?|a b]|]; try discriminate. eauto.
Qed.

Section Load.
Context {P : pops} (val : P -> R) (HP : pexact P val).
Notation heap := (heap P). Notation mgr := (mgr P). Notation node := (node P).
Local Open Scope R_scope.

(** The result of loading t (over s) at node p of the vtree d: same leaves, elements possibly in another order, primes and
    subs lifted. *)
Inductive loaded (d : vtree) : vtree -> path -> ptree -> ptree -> Prop :=
| ld_lit v p l : loaded d (Leaf v) p (TLit l) (TLit l)
| ld_top v p a b : loaded d (Leaf v) p (TTop v a b) (TTop v a b)
| ld_dec l r p u w tes tes1 tes' : emb d l (u ++ false :: p) -> emb d r (w ++ true :: p) ->
    Forall2 (fun te te1 => loaded d l (u ++ false :: p) (tp te) (tp te1) /\ loaded d r (w ++ true :: p) (ts te) (ts te1) /\ tw te1 = tw te) tes tes1 ->
    Permutation (map (lift_elem d p u w) tes1) tes' ->
    loaded d (VNode l r) p (TDec tes) (TDec tes').
Lemma loaded_dec_inv d s p tes t' : loaded d s p (TDec tes) t' -> exists l r u w tes1 tes', s = VNode l r /\ t' = TDec tes' /\ emb d l (u ++ false :: p) /\ emb d r (w ++ true :: p) /\
    Forall2 (fun te te1 => loaded d l (u ++ false :: p) (tp te) (tp te1) /\ loaded d r (w ++ true :: p) (ts te) (ts te1) /\ tw te1 = tw te) tes tes1 /\
    Permutation (map (lift_elem d p u w) tes1) tes'.
Proof. intros H. inversion H; subst. eauto 15. Qed.

(** What loading preserves. *)
Record like (t t' : ptree) : Prop := {
  lk_weight : forall x, weight t' x = weight t x;
  lk_base : forall x, base t' x = base t x;
  lk_pos : positive t -> positive t';
  lk_nonneg : nonneg t -> nonneg t';
  lk_det : deterministic t -> deterministic t';
}.
Lemma like_refl t : like t t.
Proof. split; auto. Qed.
Lemma like_trans a b c : like a b -> like b c -> like a c.
Proof. intros [] []. split; auto; intros x; congruence. Qed.
Lemma true_tree_nonneg s : nonneg (true_tree s).
Proof. apply positive_nonneg, true_tree_positive. Qed.
Lemma lift_nonneg root u p : forall t, nonneg t -> nonneg (lift root u p t).
Proof.
  induction u as [|b u IH]; intros t H; simpl; auto. apply IH. unfold wrap.
  destruct (subtree root (negb b :: u ++ p)); auto. 
  destruct b; apply all_nodes_dec; split; repeat constructor; unfold tw, tp, ts; simpl; try lra; auto; apply true_tree_nonneg.
Qed.
Lemma like_lift root u p t : like t (lift root u p t).
Proof.
  split; intros.
  - apply lift_weight.
  - apply lift_base.
  - apply lift_positive; auto.
  - apply lift_nonneg; auto.
  - apply lift_deterministic; auto.
Qed.
Lemma FOP_perm {A} (R : A -> A -> Prop) l l' : (forall a b, R a b -> R b a) -> Permutation l l' -> ForallOrdPairs R l -> ForallOrdPairs R l'.
Proof.
  intros HS PM. induction PM as [|a l l' PM IH|a b l|l1 l2 l3 P1 IH1 P2 IH2]; intros F; auto.
  - inversion F; subst. constructor; auto. eapply Permutation_Forall; eauto.
  - inversion F as [|? ? F1 F2]; subst. inversion F2 as [|? ? F3 F4]; subst. inversion F1; subst.
    constructor; [constructor; auto|]. constructor; auto.
Qed.
Lemma existsb_perm {A} (f : A -> bool) l l' : Permutation l l' -> existsb f l = existsb f l'.
Proof.
  induction 1 as [|a l l' PM IH|a b l|l1 l2 l3 P1 IH1 P2 IH2]; simpl; auto.
  - congruence.
  - destruct (f a), (f b); auto.
  - congruence.
Qed.
(** Element-wise [like] and reordering *)
Definition elike (e e' : ptree * ptree * R) : Prop := like (tp e) (tp e') /\ like (ts e) (ts e') /\ tw e' = tw e.
Lemma like_dec es es1 es' : Forall2 elike es es1 -> Permutation es1 es' -> like (TDec es) (TDec es').
Proof.
  intros F PM. split.
  - intros x. rewrite !weight_dec. rewrite <- (rsum_perm _ _ _ PM). clear PM es'.
    induction F as [|e e1 es es1 (A & B & C) F IH]; [reflexivity|]. simpl. rewrite IH, (lk_weight _ _ A), (lk_weight _ _ B), C. reflexivity.
  - intros x. rewrite !base_dec. rewrite <- (existsb_perm _ _ _ PM). clear PM es'.
    induction F as [|e e1 es es1 (A & B & C) F IH]; [reflexivity|]. simpl. rewrite IH, (lk_base _ _ A), (lk_base _ _ B). reflexivity.
  - intros H. apply all_nodes_dec in H as [H1 H2]. apply all_nodes_dec.
    assert (Forall (fun e => 0 < tw e) es1 /\ Forall (fun e => positive (tp e) /\ positive (ts e)) es1) as [G1 G2].
    { clear PM. induction F as [|e e1 es es1 (A & B & C) F IH]; [auto|]. inversion H1; inversion H2; subst.
      destruct IH as [I1 I2]; auto. split; constructor; auto; [lra|]. split; [apply A|apply B]; tauto. }
    split; (eapply Permutation_Forall; [exact PM|auto]).
  - intros H. apply all_nodes_dec in H as [H1 H2]. apply all_nodes_dec.
    assert (Forall (fun e => 0 <= tw e) es1 /\ Forall (fun e => nonneg (tp e) /\ nonneg (ts e)) es1) as [G1 G2].
    { clear PM. induction F as [|e e1 es es1 (A & B & C) F IH]; [auto|]. inversion H1; inversion H2; subst.
      destruct IH as [I1 I2]; auto. split; constructor; auto; [lra|]. split; [apply A|apply B]; tauto. }
    split; (eapply Permutation_Forall; [exact PM|auto]).
  - intros H. apply all_nodes_dec in H as [H1 H2]. apply all_nodes_dec.
    assert (ForallOrdPairs (fun e1 e2 => forall x, base (tp e1) x && base (tp e2) x = false) es1 /\
            Forall (fun e => deterministic (tp e) /\ deterministic (ts e)) es1) as [G1 G2].
    { clear PM. induction F as [|e e1 es es1 (A & B & C) F IH]; [split; constructor|]. inversion H1 as [|? ? F1 F2]; inversion H2; subst.
      destruct IH as [I1 I2]; auto. split; constructor; auto.
      - clear - A F F1. induction F as [|d d1 es es1 (A' & B' & C') F IH]; [constructor|]. inversion F1; subst. constructor; auto.
        intros x. rewrite (lk_base _ _ A), (lk_base _ _ A'). auto.
      - split; [apply A|apply B]; tauto. }
    split.
    + eapply FOP_perm; [|exact PM|exact G1]. intros a b Hab x. rewrite andb_comm. auto.
    + eapply Permutation_Forall; eauto.
Qed.
Lemma loaded_like d t : forall s p t', loaded d s p t t' -> like t t'.
Proof.
  induction t as [z|v a b|es IH] using ptree_ind2; intros s p t' H.
  - inversion H; subst. apply like_refl.
  - inversion H; subst. apply like_refl.
  - apply loaded_dec_inv in H as (l & r & u & w & tes1 & tes' & -> & -> & _ & _ & F & PM).
    eapply like_dec; [|exact PM]. clear PM. induction F as [|te te1 es tes1 (A & B & C) F IHF]; [constructor|].
    inversion IH as [|? ? [I1 I2] I3]; subst. constructor; auto. split; [|split].
    + eapply like_trans; [eapply I1; eauto|]. apply like_lift.
    + eapply like_trans; [eapply I2; eauto|]. apply like_lift.
    + unfold tw, lift_elem; simpl. exact C.
Qed.
(** Without any lifting (the source vtree is a subtree of the destination's) the parameters of every node are kept, so
    normalization is. *)
Lemma app_cons_nil {A} (u : list A) a p : u ++ a :: p = a :: p -> u = [].
Proof. intros H. apply (f_equal (@length A)) in H. rewrite app_length in H. simpl in H. destruct u; auto. simpl in H. lia. Qed.
Lemma loaded_normalized d : NoDup (leaves d) -> forall t s p t', subtree d p = Some s ->
  loaded d s p t t' -> normalized t -> normalized t'.
Proof.
  intros ND t. induction t as [z|v a b|es IH] using ptree_ind2; intros s p t' Hs H N.
  - inversion H; subst. auto.
  - inversion H; subst. auto.
  - apply loaded_dec_inv in H as (l & r & u & w & tes1 & tes' & -> & -> & El & Er & F & PM).
    assert (subtree d (false :: p) = Some l) as Sl by (simpl; rewrite Hs; reflexivity).
    assert (subtree d (true :: p) = Some r) as Sr by (simpl; rewrite Hs; reflexivity).
    assert (u = []) as -> by (eapply app_cons_nil, (emb_fun d l ND); [exact El|apply emb_self; auto]).
    assert (w = []) as -> by (eapply app_cons_nil, (emb_fun d r ND); [exact Er|apply emb_self; auto]).
    apply all_nodes_dec in N as [N1 N2]. apply all_nodes_dec.
    assert (rsum tw (map (lift_elem d p [] []) tes1) = rsum tw es /\
            Forall (fun e => normalized (tp e) /\ normalized (ts e)) (map (lift_elem d p [] []) tes1)) as [G1 G2].
    { clear PM N1. induction F as [|te te1 es tes1 (A & B & C) F IHF]; [split; constructor|].
      inversion IH as [|? ? [I1 I2] I3]; inversion N2 as [|? ? [N3 N4] N5]; subst. destruct IHF as [J1 J2]; auto. simpl in A, B. simpl. split.
      - rewrite J1. f_equal. exact C.
      - constructor; auto. split; [exact (I1 l (false :: p) _ Sl A N3)|exact (I2 r (true :: p) _ Sr B N4)]. }
    split.
    + rewrite <- (rsum_perm _ _ _ PM), G1. exact N1.
    + eapply Permutation_Forall; eauto.
Qed.

(** Tops acceptable to the destination manager *)
Definition tops_fine : ptree -> Prop := all_nodes (fun t => match t with TTop _ a b => top_ok a b | _ => True end).

(** Every reachable source node has an image vertex. *)
Lemma reach_emb sroot d (hs : heap) : heap_ok sroot hs -> forall i j, reach hs i j -> forall q s p,
  vt_of hs i = Some q -> subtree sroot q = Some s -> emb d s p ->
  exists q' s' p', vt_of hs j = Some q' /\ subtree sroot q' = Some s' /\ emb d s' p'.
Proof.
  intros HO i j R0. induction R0 as [i|i nd c j E Hc R0 IH]; intros q s p Hq Hs HE; [eauto 10|].
  apply in_children in Hc as (es & e & Eb & He & Hc).
  pose proof (HO _ _ E) as NO. unfold node_ok in NO. rewrite Eb in NO. destruct NO as (_ & (l & r & HV) & F).
  rewrite Forall_forall in F. destruct (F e He) as (_ & _ & V1 & V2).
  unfold vt_of in Hq. rewrite E in Hq. injection Hq as <-. rewrite Hs in HV. injection HV as ->.
  inversion HE as [|? ? ? u w El Er]; subst.
  destruct Hc as [->| ->]; [apply (IH _ l (u ++ false :: p) V1)|apply (IH _ r (w ++ true :: p) V2)]; auto; simpl; rewrite Hs; reflexivity.
Qed.

Lemma mapM_get {A B} (f : A -> option B) l l' : Forall2 (fun a b => f a = Some b) l l' -> mapM (fun a => get (f a)) l = Ok l'.
Proof. induction 1 as [|a b l l' E F IH]; [reflexivity|]. simpl. rewrite E. simpl. rewrite IH. reflexivity. Qed.
Lemma clear_ud_spec {A} (ser : list nat) : forall (ud : nat -> option A) i, clear_ud ser ud i = if memb i ser then None else ud i.
Proof.
  unfold clear_ud. induction ser as [|a ser IH]; intros ud i; simpl; auto.
  rewrite IH. unfold set_ud. destruct (Nat.eqb i a) eqn:E; simpl; destruct (memb i ser); auto.
Qed.
Lemma NoDup_app_nin {A} (L1 L2 : list A) i : NoDup (L1 ++ i :: L2) -> ~ In i L2.
Proof. intros H. apply NoDup_remove_2 in H. intros G. apply H, in_or_app. auto. Qed.

(** Image of node i of the source *)
Definition image sroot (hs : heap) fl (m : mgr) (ud : udata) (i : nat) : Prop :=
  exists j q s p t t', ud i = Some j /\ vt_of hs i = Some q /\ subtree sroot q = Some s /\ emb (m_vt m) s p /\
    Rep val hs i t /\ node_at val m j p t' /\ loaded (m_vt m) s p t t' /\ flag_of (m_heap m) j = Some fl /\ In j (m_live m).
Lemma image_ext sroot (hs : heap) fl (m m' : mgr) ud ud' i : mext fl m m' -> ud' i = ud i -> image sroot hs fl m ud i -> image sroot hs fl m' ud' i.
Proof.
  intros X E (j & q & s & p & t & t' & H1 & H2 & H3 & H4 & H5 & H6 & H7 & H8 & H9). exists j, q, s, p, t, t'.
  rewrite (me_vt _ _ _ X). split; [congruence|]. do 4 (split; auto). split; [eapply node_at_ext; eauto|]. split; auto.
  split; [|apply (me_live _ _ _ X); auto]. destruct X as [_ (l & -> & _) _ _]. unfold flag_of in *.
  destruct (nth_error (m_heap m) j) as [nd|] eqn:E'; [|discriminate]. rewrite nth_error_app1; [rewrite E'; auto|].
  apply nth_error_Some. congruence.
Qed.
Lemma image_fun sroot (hs : heap) fl (m : mgr) ud i q s p t : NoDup (leaves (m_vt m)) -> image sroot hs fl m ud i ->
  vt_of hs i = Some q -> subtree sroot q = Some s -> emb (m_vt m) s p -> Rep val hs i t ->
  exists j t', ud i = Some j /\ node_at val m j p t' /\ loaded (m_vt m) s p t t'.
Proof.
  intros ND (j & q' & s' & p' & t0 & t' & H1 & H2 & H3 & H4 & H5 & H6 & H7 & H8) E1 E2 E3 E4.
  assert (q' = q) as -> by congruence. assert (s' = s) as -> by congruence. assert (p' = p) as -> by (eapply emb_fun; eauto).
  rewrite (Rep_fun _ _ _ _ _ E4 H5). eauto.
Qed.
Lemma load_step_spec sroot (hs : heap) root fl L1 i L2 ud (m : mgr) L q0 s0 p0 t0 :
  heap_ok sroot hs -> ser_of hs root L -> L = L1 ++ i :: L2 ->
  vt_of hs root = Some q0 -> subtree sroot q0 = Some s0 -> emb (m_vt m) s0 p0 -> Rep val hs root t0 -> tops_fine t0 ->
  Inv val fl m -> (forall c, In c L2 -> image sroot hs fl m ud c) ->
  exists j m', load_step hs fl (ud, m) i = Ok (set_ud ud i (Some j), m') /\ Inv val fl m' /\ mext fl m m' /\
    (forall c, In c (i :: L2) -> image sroot hs fl m' (set_ud ud i (Some j)) c).
Proof.
  intros HO SO EL H0 H1 H2 H3 TF I IM.
  assert (reach hs root i) as RI by (apply (so_in _ _ _ SO); rewrite EL; apply in_elt).
  destruct (reach_emb sroot (m_vt m) hs HO _ _ RI _ _ _ H0 H1 H2) as (q & s & p & Vq & Ss & Em).
  destruct (Rep_exists val sroot hs HO i) as [t Rt]. { eapply vt_of_lt; eauto. }
  pose proof (reach_all_nodes _ _ _ _ _ _ _ RI H3 Rt TF) as TFi.
  pose proof (NoDup_app_nin L1 L2 i ltac:(rewrite <- EL; apply (so_nodup _ _ _ SO))) as NI.
  assert (forall j (m' : mgr) c t', mext fl m m' -> In c (i :: L2) ->
    node_at val m' j p t' -> loaded (m_vt m) s p t t' -> flag_of (m_heap m') j = Some fl -> In j (m_live m') -> image sroot hs fl m' (set_ud ud i (Some j)) c) as FIN.
  { intros j m' c t' X Hc A LD FL LV. destruct Hc as [<-|Hc].
    - exists j, q, s, p, t, t'. rewrite (me_vt _ _ _ X). unfold set_ud at 1. rewrite Nat.eqb_refl. auto 12.
    - apply (image_ext sroot hs fl m m' ud); auto. unfold set_ud. destruct (Nat.eqb c i) eqn:E; auto.
      apply Nat.eqb_eq in E. subst. contradiction. }
  unfold load_step. inversion Rt as [? nd l E Eb|? nd v pt pf E Eb|? nd es tes E Eb F]; subst; rewrite E; cbn [get bind]; rewrite Eb.
  - pose proof (HO _ _ E) as NO. unfold node_ok in NO. rewrite Eb in NO. unfold vt_of in Vq. rewrite E in Vq. injection Vq as <-.
    rewrite NO in Ss. injection Ss as <-. pose proof (emb_valid _ _ _ Em) as EV. simpl in EV.
    destruct (literal_spec val HP fl m l p I EV) as (j & m' & E1 & I' & X & LV & A & FL).
    exists j, m'. rewrite E1. cbn [bind]. do 3 (split; auto). intros c Hc. apply (FIN j m' c (TLit l)); auto. constructor.
  - pose proof (HO _ _ E) as NO. unfold node_ok in NO. rewrite Eb in NO. unfold vt_of in Vq. rewrite E in Vq. injection Vq as <-.
    rewrite NO in Ss. injection Ss as <-. pose proof (emb_valid _ _ _ Em) as EV. simpl in EV.
    destruct (top_spec val HP fl m v pt pf p I EV (all_nodes_root _ _ TFi)) as (j & m' & E1 & I' & X & LV & A & FL).
    exists j, m'. rewrite E1. cbn [bind]. do 3 (split; auto). intros c Hc. apply (FIN j m' c (TTop v (val pt) (val pf))); auto. constructor.
  - pose proof (HO _ _ E) as NO. unfold node_ok in NO. rewrite Eb in NO. destruct NO as (NE & (l & r & HV) & FE). unfold vt_of in Vq. rewrite E in Vq. injection Vq as <-.
    rewrite HV in Ss. injection Ss as <-. inversion Em as [|? ? ? u w El Er]; subst.
    destruct (emb_valid _ _ _ Em) as (dl & dr & DV).
    assert (forall c, In c (children nd) -> image sroot hs fl m ud c) as IMC.
    { intros c Hc. apply IM. eapply (so_topo _ _ _ SO); eauto. }
    assert (subtree sroot (false :: n_vt nd) = Some l) as Sl by (simpl; rewrite HV; reflexivity).
    assert (subtree sroot (true :: n_vt nd) = Some r) as Sr by (simpl; rewrite HV; reflexivity).
    assert (forall e, In e es -> image sroot hs fl m ud (e_prime e) /\ image sroot hs fl m ud (e_sub e)) as IME.
    { intros e He. split; apply IMC, in_children; eauto 10. }
    clear IMC.
    assert (exists es1 tes1, mapM (fun e => get (ud (e_prime e))) es = Ok (map e_prime es1) /\
              mapM (fun e => get (ud (e_sub e))) es = Ok (map e_sub es1) /\ map e_param es1 = map e_param es /\
              Forall2 (fun te te1 => loaded (m_vt m) l (u ++ false :: p) (tp te) (tp te1) /\ loaded (m_vt m) r (w ++ true :: p) (ts te) (ts te1) /\ tw te1 = tw te) tes tes1 /\
              lifted val m p es1 tes1 (map (lift_elem (m_vt m) p u w) tes1)) as (es1 & tes1 & E1 & E2 & E3 & F1 & HL).
    { clear E Eb Rt NE TFi FIN HV DV. induction F as [|e te es tes (R1 & R2 & R3) F IH].
      - exists [], []. repeat (split; [reflexivity||constructor|]). constructor.
      - inversion FE as [|? ? (_ & _ & V1 & V2) FE']; subst.
        destruct IH as (es1 & tes1 & E1 & E2 & E3 & F1 & HL); auto. { intros; apply IME; right; auto. }
        destruct (IME e (or_introl eq_refl)) as [M1 M2].
        destruct (image_fun _ _ _ _ _ _ _ _ _ _ (wf_leaves _ (proj1 I)) M1 V1 Sl El R1) as (j1 & t1 & U1 & A1 & L1').
        destruct (image_fun _ _ _ _ _ _ _ _ _ _ (wf_leaves _ (proj1 I)) M2 V2 Sr Er R2) as (j2 & t2 & U2 & A2 & L2').
        exists (MkE j1 j2 (e_param e) :: es1), ((t1, t2, tw te) :: tes1). cbn [mapM map e_prime e_sub e_param].
        rewrite U1, U2. cbn [get bind]. rewrite E1, E2. cbn [bind]. do 2 (split; auto). split; [congruence|]. split.
        + constructor; auto.
        + constructor; auto. split; [exact A1|]. split; [exact A2|]. unfold tw. simpl. exact R3. }
    rewrite E1. cbn [bind]. rewrite E2. cbn [bind]. rewrite <- E3.
    assert (es1 <> []) as NE1 by (intros ->; destruct es; [congruence|discriminate]).
    destruct (get_conformed_spec val HP fl m p dl dr es1 tes1 _ I DV NE1 HL) as (j & m' & tes2 & E4 & I' & X & LV & PM & A & FL).
    rewrite E4. cbn [bind]. exists j, m'. do 3 (split; auto). intros c Hc.
    apply (FIN j m' c (TDec tes2)); auto. eapply ld_dec; eauto.
Qed.

Theorem load_spec sroot (hs : heap) root fl (m : mgr) ud q s p u t :
  heap_ok sroot hs -> vt_of hs root = Some q -> subtree sroot q = Some s -> emb (m_vt m) s (u ++ p) ->
  Rep val hs root t -> tops_fine t -> Inv val fl m ->
  exists j ud' m' t1, LoadPsddNode hs ud (Some p) root fl m = Ok (j, ud', m') /\ Inv val fl m' /\ mext fl m m' /\
    loaded (m_vt m) s (u ++ p) t t1 /\ node_at val m' j p (lift (m_vt m) u p t1) /\
    flag_of (m_heap m') j = Some fl /\ In j (m_live m') /\
    (forall i, reach hs root i -> ud' i = None) /\ (forall i, ~ reach hs root i -> ud' i = ud i).
Proof.
  intros HO Hq Hs HE HR TF I. destruct (serialize_root hs sroot root HO) as [L SO]. { eapply vt_of_lt; eauto. }
  unfold LoadPsddNode. rewrite (so_eq _ _ _ SO). cbn [bind].
  destruct (bottom_up (load_step hs fl) (fun L2 st => Inv val fl (snd st) /\ mext fl m (snd st) /\
     (forall c, In c L2 -> image sroot hs fl (snd st) (fst st) c) /\ (forall c, ~ In c L2 -> fst st c = ud c)) L (ud, m))
     as ([ud1 m1] & E1 & I1 & X1 & IM1 & U1).
  { intros L1 i L2 [ud0 m0] EL (I0 & X0 & IM0 & U0). simpl in I0, X0, IM0, U0.
    destruct (load_step_spec sroot hs root fl L1 i L2 ud0 m0 L q s (u ++ p) t) as (j & m' & E' & I' & X' & IM'); auto.
    { rewrite (me_vt _ _ _ X0). auto. }
    exists (set_ud ud0 i (Some j), m'). split; auto. simpl. split; auto. split; [eapply mext_trans; eauto|]. split; auto.
    intros c Hc. unfold set_ud. destruct (Nat.eqb c i) eqn:E; [apply Nat.eqb_eq in E; subst; exfalso; apply Hc; left; auto|].
    apply U0. intros G. apply Hc. right; auto. }
  { simpl. split; auto. split; [apply mext_refl|]. split; auto. intros c []. }
  simpl in I1, X1, IM1, U1. rewrite E1. cbn [bind].
  assert (In root L) as HRL by (apply (so_in _ _ _ SO); constructor).
  pose proof (IM1 root HRL) as IR.
  destruct IR as (j & q' & s' & p' & t0 & t1 & F1 & F2 & F3 & F4 & F5 & F6 & F7 & F8 & F9).
  rewrite (me_vt _ _ _ X1) in F4, F7.
  assert (q' = q) as -> by congruence. assert (s' = s) as -> by congruence.
  assert (p' = u ++ p) as -> by (eapply emb_fun; eauto; apply I).
  rewrite (Rep_fun _ _ _ _ _ F5 HR) in F7.
  rewrite F1. cbn [get bind].
  destruct (normalize_spec val HP fl m1 u p j t1 I1 F6) as (j2 & m2 & E2 & I2 & X2 & A2 & N2 & N2').
  rewrite E2. cbn [bind]. exists j2, (clear_ud L ud1), m2, t1. rewrite (me_vt _ _ _ X1) in A2.
  split; auto. split; auto. split; [eapply mext_trans; eauto|]. split; auto. split; auto.
  assert (flag_of (m_heap m2) j2 = Some fl /\ In j2 (m_live m2)) as [G1 G2].
  { destruct u as [|b u].
    - rewrite (N2 eq_refl). split; [|apply (me_live _ _ _ X2); auto]. destruct X2 as [_ (l & -> & _) _ _]. unfold flag_of in *.
      destruct (nth_error (m_heap m1) j) as [nd|] eqn:E'; [|discriminate]. rewrite nth_error_app1; [rewrite E'; auto|].
      apply nth_error_Some. congruence.
    - apply N2'. discriminate. }
  split; auto. split; auto. split; intros i Hi; rewrite clear_ud_spec.
  - apply (so_in _ _ _ SO) in Hi. destruct (memb i L) eqn:EM; auto. apply memb_false in EM. contradiction.
  - assert (~ In i L) as Hi' by (intros G; apply Hi, (so_in _ _ _ SO); auto). destruct (memb i L) eqn:EM; auto.
    apply memb_In in EM. contradiction.
Qed.
End Load.
