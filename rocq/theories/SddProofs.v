(** SDDs as trees, their meaning, and what the conversions between SDDs and PSDDs return. *)
From Coq Require Import Reals Lra.
From Verif Require Import Base Param Vtree VtreeProofs Spec SpecProofs Heap Manager HeapProofs SerProofs RepProofs LoadProofs MulProofs TreeProofs Query
  QueryProofs SampleProofs Sdd.

(** ** SDDs as trees over the SDD's vtree *)
Inductive stree := XT | XF | XL (p : path) (l : Z) | XD (p : path) (es : list (stree * stree)).
Section ind.
  Variable Q : stree -> Prop.
  Hypothesis HT : Q XT.
  Hypothesis HF : Q XF.
  Hypothesis HL : forall p l, Q (XL p l).
  Hypothesis HD : forall p es, Forall (fun e => Q (fst e) /\ Q (snd e)) es -> Q (XD p es).
  Fixpoint stree_ind2 (t : stree) : Q t :=
    match t with
    | XT => HT
    | XF => HF
    | XL p l => HL p l
    | XD p es =>
        HD p es ((fix go (l : list (stree * stree)) : Forall (fun e => Q (fst e) /\ Q (snd e)) l :=
                    match l with
                    | [] => Forall_nil _
                    | e :: l' => Forall_cons e (conj (stree_ind2 (fst e)) (stree_ind2 (snd e))) (go l')
                    end) es)
    end.
End ind.
Fixpoint models (t : stree) (x : inst) : bool :=
  match t with
  | XT => true
  | XF => false
  | XL _ l => lit_sat l x
  | XD _ es => existsb (fun e => models (fst e) x && models (snd e) x) es
  end.
(** the vtree node of a non-constant SDD *)
Definition spath (t : stree) : option path := match t with XL p _ | XD p _ => Some p | _ => None end.
(** [t] is normalized somewhere below [p] *)
Definition below (p : path) (t : stree) : Prop := exists u, spath t = Some (u ++ p).
(** A compressed and trimmed SDD (Darwiche 2011), as libsdd keeps them: primes below the left child, not constant and mutually
    exclusive; subs constant or below the right child; not all subs false. *)
Fixpoint swf (vt : vtree) (t : stree) : Prop :=
  match t with
  | XT | XF => True
  | XL p l => subtree vt p = Some (Leaf (Z.abs_N l)) /\ l <> 0%Z
  | XD p es => (exists a b, subtree vt p = Some (VNode a b)) /\
      fold_right (fun e acc => swf vt (fst e) /\ swf vt (snd e) /\ acc) True es /\
      Forall (fun e => below (false :: p) (fst e) /\ (snd e = XT \/ snd e = XF \/ below (true :: p) (snd e))) es /\
      Exists (fun e => snd e <> XF) es /\
      ForallOrdPairs (fun e1 e2 => forall x, models (fst e1) x && models (fst e2) x = false) es
  end.
Lemma swf_dec vt p es : swf vt (XD p es) <-> (exists a b, subtree vt p = Some (VNode a b)) /\
  Forall (fun e => swf vt (fst e) /\ swf vt (snd e)) es /\
  Forall (fun e => below (false :: p) (fst e) /\ (snd e = XT \/ snd e = XF \/ below (true :: p) (snd e))) es /\
  Exists (fun e => snd e <> XF) es /\
  ForallOrdPairs (fun e1 e2 => forall x, models (fst e1) x && models (fst e2) x = false) es.
Proof.
  simpl. apply and_iff_compat_l. apply and_iff_compat_r. clear. induction es as [|e es IH]; simpl.
  - split; auto.
  - rewrite IH, Forall_cons_iff. tauto.
Qed.

(** The node [n] of the SDD manager represents [t]. *)
Inductive SRep (sd : sdd) : nat -> stree -> Prop :=
| SRep_true n p : sd n = Some (MkS p STrue) -> SRep sd n XT
| SRep_false n p : sd n = Some (MkS p SFalse) -> SRep sd n XF
| SRep_lit n p l : sd n = Some (MkS p (SLit l)) -> SRep sd n (XL p l)
| SRep_dec n p es ts : sd n = Some (MkS p (SDec es)) ->
    Forall2 (fun e t => SRep sd (fst e) (fst t) /\ SRep sd (snd e) (snd t)) es ts -> SRep sd n (XD p ts).
Lemma SRep_dec_inv sd n p ts : SRep sd n (XD p ts) -> exists es, sd n = Some (MkS p (SDec es)) /\
  Forall2 (fun e t => SRep sd (fst e) (fst t) /\ SRep sd (snd e) (snd t)) es ts.
Proof. intros H. inversion H; subst; eauto. Qed.
Lemma SRep_fun sd t : forall n t', SRep sd n t -> SRep sd n t' -> t = t'.
Proof.
  induction t as [| |p l|p ts IH] using stree_ind2; intros n t' H H'; inversion H; subst; inversion H'; subst; try congruence.
  match goal with A : sd n = Some (MkS p (SDec ?e1)), B : sd n = Some (MkS ?q (SDec ?e2)) |- _ => assert (e1 = e2 /\ p = q) as [-> ->] by (split; congruence) end.
  f_equal. match goal with A : Forall2 _ ?e ts, B : Forall2 _ ?e ?ts' |- _ => revert A B; generalize ts'; clear - IH; revert e end.
  induction IH as [|[a b] ts (IH1 & IH2) IHs IHl]; intros e ts' A B; inversion A as [|x ? ? ? HA A']; subst; inversion B as [|? [a' b'] ? ? HB B']; subst; auto.
  simpl in *. f_equal; [|eauto]. destruct HA, HB. f_equal; [eapply IH1|eapply IH2]; eauto.
Qed.

(** Every trimmed SDD other than false is satisfiable (and its models only depend on the variables under its vtree node). *)
Lemma models_ext vt t : swf vt t -> forall p s x y, spath t = Some p -> subtree vt p = Some s -> (forall v, In v (leaves s) -> x v = y v) -> models t x = models t y.
Proof.
  induction t as [| |q l|q es IH] using stree_ind2; intros W p s x y Ep Es Hxy; auto; try discriminate.
  - simpl in *. injection Ep as ->. destruct W as [W _]. rewrite W in Es. injection Es as <-. unfold lit_sat. rewrite (Hxy (Z.abs_N l)); simpl; auto.
  - apply swf_dec in W as ((a & b & Hab) & W1 & W2 & _ & _). simpl in Ep. injection Ep as ->. rewrite Hab in Es. injection Es as <-.
    assert (forall (bb : bool) t', (t' = XT \/ t' = XF \/ below (bb :: p) t') -> (swf vt t' -> forall p' s', spath t' = Some p' -> subtree vt p' = Some s' ->
        (forall v, In v (leaves s') -> x v = y v) -> models t' x = models t' y) -> swf vt t' -> models t' x = models t' y) as K.
    { intros bb t' B IH' W'. destruct B as [->|[->|[u Hu]]]; auto.
      assert (exists s', subtree vt (u ++ bb :: p) = Some s') as [s' Hs'].
      { destruct t'; simpl in Hu; try discriminate; injection Hu as ->.
        - destruct W' as [W' _]. eauto.
        - apply swf_dec in W' as ((c & d & Hcd) & _). eauto. }
      eapply IH'; eauto. intros v Hv. apply Hxy. rewrite subtree_app in Hs'. simpl in Hs'. rewrite Hab in Hs'.
      assert (In v (leaves (if bb then b else a))) as Hv'.
      { eapply (nodes_leaves [] _ u s'); eauto. apply nodes_root. destruct bb; exact Hs'. }
      simpl. apply in_or_app. destruct bb; auto. }
    simpl. rewrite Forall_forall in IH, W1, W2. clear - IH W1 W2 K.
    induction es as [|e es IHl]; simpl; auto.
    f_equal.
    + destruct (W2 e) as [B1 B2]; [left; auto|]. destruct (IH e) as [I1 I2]; [left; auto|]. destruct (W1 e) as [C1 C2]; [left; auto|].
      rewrite (K false (fst e)), (K true (snd e)); auto.
      * intros C p0 s0. apply (I2 C).
      * intros C p0 s0. apply (I1 C).
    + apply IHl; intros; [apply IH|apply W1|apply W2]; right; auto.
Qed.
Lemma swf_sat vt t : NoDup (leaves vt) -> swf vt t -> t <> XF -> exists x, models t x = true.
Proof.
  intros ND. induction t as [| |q l|q es IH] using stree_ind2; intros W NF; try congruence.
  - exists (fun _ => true). auto.
  - exists (fun _ => Z.ltb 0 l). simpl. unfold lit_sat. apply eqb_reflx.
  - apply swf_dec in W as ((a & b & Hab) & W1 & W2 & EX & _). apply Exists_exists in EX as (e & He & Ne).
    rewrite Forall_forall in IH, W1, W2. destruct (W2 e He) as [[u Hu] B]. destruct (IH e He) as [I1 I2]. destruct (W1 e He) as [C1 C2].
    destruct (I1 C1) as [x Hx]; [intros Z; rewrite Z in Hu; discriminate|]. destruct (I2 C2 Ne) as [y Hy].
    set (z := fun v => if NmemB v (leaves a) then x v else y v). exists z.
    simpl. apply existsb_exists. exists e. split; auto.
    assert (NoDup (leaves a ++ leaves b)) as NDab.
    { apply nodes_root in Hab. exact (nodes_leaves_nodup [] vt q (VNode a b) ND Hab). }
    apply NoDup_app_inv in NDab as (_ & _ & Dab).
    assert (forall t' (bb : bool) u w, swf vt t' -> spath t' = Some (u ++ bb :: q) -> models t' w = true ->
       (forall v, In v (leaves (if bb then b else a)) -> w v = z v) -> models t' z = true) as K.
    { intros t' bb u' w W' Hu' Hw Hv. rewrite <- Hw. symmetry.
      assert (exists s', subtree vt (u' ++ bb :: q) = Some s') as [s' Hs'].
      { destruct t'; simpl in Hu'; try discriminate; injection Hu' as ->.
        - destruct W' as [W' _]. eauto.
        - apply swf_dec in W' as ((c & d & Hcd) & _). eauto. }
      eapply models_ext; eauto. intros v Hin. apply Hv. rewrite subtree_app in Hs'. simpl in Hs'. rewrite Hab in Hs'.
      eapply (nodes_leaves [] _ u' s'); eauto. apply nodes_root. destruct bb; exact Hs'. }
    apply andb_true_iff. split.
    + eapply (K (fst e) false u x); eauto. intros v Hv. unfold z. apply NmemB_In in Hv. rewrite Hv. auto.
    + destruct B as [E|[E|[u' Hu']]]; [rewrite E; reflexivity|congruence|].
      eapply (K (snd e) true u' y); eauto. intros v Hv. unfold z.
      destruct (NmemB v (leaves a)) eqn:E; auto. apply NmemB_In in E. exfalso. eapply Dab; eauto.
Qed.

(** ** Tagging isomorphic vtrees *)
Section Tag.
Context (f : N -> option N) (pb : path).
Definition shift (x : path * vtree) : path * vtree := (fst x ++ pb, match rename_vtree f (snd x) with Some t => t | None => snd x end).
Definition renamable (x : path * vtree) : Prop := covers f (snd x).
Lemma covers_node a b : covers f (VNode a b) <-> covers f a /\ covers f b.
Proof.
  unfold covers. simpl. split.
  - intros H. split; intros v Hv; apply H; apply in_or_app; auto.
  - intros [H1 H2] v Hv. apply in_app_or in Hv as [Hv|Hv]; auto.
Qed.
Lemma kids_shift x : renamable x -> kids (shift x) = map shift (kids x) /\ Forall renamable (kids x).
Proof.
  destruct x as [q [v|a b]]; unfold renamable, shift, kids; simpl; intros H.
  - destruct (f v); simpl; split; auto.
  - apply covers_node in H as [Ha Hb]. destruct (rename_some f a Ha) as [a' Ea]. destruct (rename_some f b Hb) as [b' Eb].
    rewrite Ea, Eb. simpl. rewrite ?Ea, ?Eb. split; auto.
Qed.
Lemma shift_size x : renamable x -> vsize (snd (shift x)) = vsize (snd x).
Proof.
  destruct x as [q t]. unfold renamable, shift; simpl. revert q. induction t as [v|a IHa b IHb]; simpl; intros q H.
  - destruct (f v); auto.
  - apply covers_node in H as [Ha Hb]. specialize (IHa [] Ha). specialize (IHb [] Hb).
    destruct (rename_some f a Ha) as [a' Ea]. destruct (rename_some f b Hb) as [b' Eb]. rewrite Ea, Eb in *. simpl. lia.
Qed.
Lemma bfs_shift : forall fuel q L, Forall renamable q -> bfs fuel q = Ok L -> bfs fuel (map shift q) = Ok (map shift L).
Proof.
  induction fuel as [|fuel IH]; intros q L F E.
  - destruct q; simpl in *; try discriminate. injection E as <-. auto.
  - destruct q as [|x q]; simpl in *; [injection E as <-; auto|]. inversion F as [|? ? F1 F2]; subst.
    destruct (kids_shift x F1) as [EK FK]. bk E as r Er.
    rewrite EK, <- map_app, (IH _ _ (proj2 (Forall_app _ _ _) (conj F2 FK)) Er). simpl. injection E as <-. auto.
Qed.
Lemma serialize_shift t t' L : rename_vtree f t = Some t' -> covers f t -> SerializeVtree [] t = Ok L ->
  SerializeVtree pb t' = Ok (map shift L).
Proof.
  intros Et C E. unfold SerializeVtree in *.
  pose proof (shift_size ([], t) C) as Sz. unfold shift in Sz. simpl in Sz. rewrite Et in Sz. rewrite Sz.
  pose proof (bfs_shift _ [([], t)] L ltac:(constructor; [exact C|constructor]) E) as K.
  simpl in K. unfold shift at 1 in K. simpl in K. rewrite Et in K. exact K.
Qed.
End Tag.
Lemma set_pdata_fold (l : list ((path * vtree) * (path * vtree))) : forall (d : pdata) q,
  NoDup (map (fun x => fst (fst x)) l) ->
  fold_left (fun d sp => set_pdata d (fst (fst sp)) (Some (fst (snd sp)))) l d q =
  match find (fun sp => path_eqb q (fst (fst sp))) l with Some sp => Some (fst (snd sp)) | None => d q end.
Proof.
  induction l as [|x l IH]; intros d q ND; simpl; auto. simpl in ND. inversion ND as [|? ? N1 N2]; subst.
  rewrite IH by auto. unfold set_pdata. destruct (path_eqb q (fst (fst x))) eqn:E; auto.
  apply path_eqb_true in E. subst q. destruct (find (fun sp => path_eqb (fst (fst x)) (fst (fst sp))) l) eqn:F; auto.
  apply find_some in F as [F1 F2]. apply path_eqb_true in F2. exfalso. apply N1. rewrite F2. apply in_map_iff. eauto.
Qed.
Lemma tag_spec f pb svt L d : covers f svt -> SerializeVtree [] svt = Ok L ->
  exists d1, Tag d L (map (shift f pb) L) = Ok d1 /\ (forall q s, subtree svt q = Some s -> d1 q = Some (q ++ pb)) /\
    (forall q, subtree svt q = None -> d1 q = d q).
Proof.
  intros C E. unfold Tag. rewrite map_length, Nat.eqb_refl. cbn [assert bind]. eexists. split; [reflexivity|].
  destruct (serialize_vtree_spec [] svt) as (L' & E' & PL & _). rewrite E in E'. injection E' as <-.
  assert (forall l, map (fun x : (path * vtree) * (path * vtree) => fst (fst x)) (combine l (map (shift f pb) l)) = map fst l) as M.
  { induction l as [|x l IH]; simpl; auto. f_equal. auto. }
  assert (ND : NoDup (map fst L)) by (eapply ser_nodup; eauto).
  assert (forall l, forall q, find (fun sp => path_eqb q (fst (fst sp))) (combine l (map (shift f pb) l)) =
     option_map (fun x => (x, shift f pb x)) (find (fun x => path_eqb q (fst x)) l)) as FD.
  { induction l as [|x l IH]; intros q; simpl; auto. destruct (path_eqb q (fst x)); auto. }
  split.
  - intros q s Hs. rewrite set_pdata_fold by (rewrite M; auto). rewrite FD.
    assert (In (q, s) L) as Hin by (apply (Permutation_in _ (Permutation_sym PL)), nodes_root; auto).
    destruct (find (fun x => path_eqb q (fst x)) L) as [x|] eqn:F.
    + apply find_some in F as [F1 F2]. apply path_eqb_true in F2. simpl. rewrite F2. auto.
    + exfalso. apply (find_none _ _ F) in Hin. simpl in Hin. rewrite path_eqb_refl in Hin. discriminate.
  - intros q Hs. rewrite set_pdata_fold by (rewrite M; auto). rewrite FD.
    destruct (find (fun x => path_eqb q (fst x)) L) as [x|] eqn:F; auto.
    apply find_some in F as [F1 F2]. apply path_eqb_true in F2. apply (Permutation_in _ PL) in F1. destruct x as [q' s']. simpl in F2. subst q'.
    apply nodes_root in F1. congruence.
Qed.
Lemma clear_pdata (l : list (path * vtree)) : forall (d : pdata) q,
  fold_left (fun d x => set_pdata d (fst x) None) l d q = if existsb (path_eqb q) (map fst l) then None else d q.
Proof.
  induction l as [|x l IH]; intros d q; simpl; auto. rewrite IH. unfold set_pdata.
  destruct (path_eqb q (fst x)); simpl; auto. destruct (existsb (path_eqb q) (map fst l)); auto.
Qed.
Lemma rename_subtree f t t' : rename_vtree f t = Some t' -> forall q, match subtree t q with
  | Some s => exists s', rename_vtree f s = Some s' /\ subtree t' q = Some s'
  | None => subtree t' q = None end.
Proof.
  intros E. induction q as [|b q IH]; simpl; [eauto|].
  destruct (subtree t q) as [[v|l r]|].
  - destruct IH as (s' & E1 & E2). rewrite E2. simpl in E1. destruct (f v); [|discriminate]. injection E1 as <-. reflexivity.
  - destruct IH as (s' & E1 & E2). rewrite E2. simpl in E1.
    destruct (rename_vtree f l) as [l'|] eqn:El; [|discriminate]. destruct (rename_vtree f r) as [r'|] eqn:Er; [|discriminate].
    injection E1 as <-. destruct b; simpl; eauto.
  - rewrite IH. auto.
Qed.

(** ** All parameters one *)
Local Open Scope R_scope.
Definition unit_params : ptree -> Prop :=
  all_nodes (fun t => match t with
                      | TLit _ => True
                      | TTop _ a b => a = 1 /\ b = 1
                      | TDec es => Forall (fun e => tw e = 1) es
                      end).
Lemma unit_positive t : unit_params t -> positive t.
Proof.
  unfold unit_params, positive. induction t as [l|v a b|es IH] using ptree_ind2; intros H.
  - split; exact I.
  - destruct H as [[-> ->] _]. split; [lra|exact I].
  - apply all_nodes_dec in H as [H1 H2]. apply all_nodes_dec. split.
    + eapply Forall_impl; [|exact H1]. intros e E. simpl in E. lra.
    + rewrite Forall_forall in *. intros e He. destruct (IH e He), (H2 e He). auto.
Qed.
Lemma unit_weight t : unit_params t -> deterministic t -> forall x, weight t x = if base t x then 1 else 0.
Proof.
  unfold unit_params, deterministic. induction t as [l|v a b|es IH] using ptree_ind2; intros U D x.
  - reflexivity.
  - destruct U as [[-> ->] _]. simpl. destruct (x v); auto.
  - apply all_nodes_dec in U as [U1 U2]. apply all_nodes_dec in D as [D1 D2]. simpl.
    revert IH U1 U2 D1 D2. clear. induction es as [|e es IHl]; intros IH U1 U2 D1 D2; simpl; auto.
    inversion IH as [|? ? [I1 I2] I3]; inversion U1; inversion U2 as [|? ? [U3 U4] U5]; inversion D1 as [|? ? D3 D4]; inversion D2 as [|? ? [D5 D6] D7]; subst.
    unfold tp, ts, tw in *. rewrite I1, I2 by auto. rewrite IHl by auto. match goal with E : snd e = 1 |- _ => rewrite E end.
    destruct (base (fst (fst e)) x) eqn:E1, (base (snd (fst e)) x) eqn:E2; simpl; try lra.
    assert (existsb (fun e0 => base (fst (fst e0)) x && base (snd (fst e0)) x) es = false) as ->; [|lra].
    apply not_true_is_false. intros Z. apply existsb_exists in Z as (e' & He' & Z). rewrite Forall_forall in D3.
    specialize (D3 e' He' x). rewrite E1 in D3. simpl in D3. rewrite D3 in Z. discriminate.
Qed.
Lemma true_tree_unit s : unit_params (true_tree s).
Proof.
  unfold unit_params. induction s as [v|a IHa b IHb]; [simpl; auto|]. apply all_nodes_dec. split; constructor; auto.
Qed.
Lemma lift_unit root u p : forall t, unit_params t -> unit_params (lift root u p t).
Proof.
  unfold unit_params. induction u as [|b u IH]; intros t H; simpl; auto. apply IH. unfold wrap.
  destruct (subtree root (negb b :: u ++ p)) as [s|]; auto. pose proof (true_tree_unit s) as K. unfold unit_params in K.
  destruct b; apply all_nodes_dec; split; repeat constructor; unfold tp, ts; simpl; auto.
Qed.

Section FromSdd.
Context {P : pops} (val : P -> R) (HP : pexact P val).
Notation mgr := (mgr P). Notation heap := (heap P).
Notation Rep := (Rep val). Notation node_at := (node_at val). Notation Inv := (Inv val). Notation tm_ok := (tm_ok val).
Notation ElemRep := (ElemRep val).

Lemma mk_elems_more (es : list (elem P)) : forall pre post,
  mk_elems (pre ++ map e_param es ++ post) (length pre) (map e_prime es) (map e_sub es) = Ok es.
Proof.
  induction es as [|e es IH]; intros pre post; simpl; auto.
  unfold param_at. destruct (pre ++ e_param e :: map e_param es ++ post) as [|w ws] eqn:E; [destruct pre; discriminate|].
  rewrite <- E. rewrite nth_error_app2, Nat.sub_diag by lia. simpl.
  specialize (IH (pre ++ [e_param e]) post). rewrite <- app_assoc, app_length in IH. simpl in IH.
  replace (length pre + 1)%nat with (S (length pre)) in IH by lia. rewrite IH. simpl. destruct e; reflexivity.
Qed.
Lemma new_dec_more (m : mgr) vt fl es post : es <> [] -> new_dec m vt fl (map e_prime es) (map e_sub es) (map e_param es ++ post) =
  new_dec m vt fl (map e_prime es) (map e_sub es) (map e_param es).
Proof.
  intros NE. unfold new_dec. pose proof (mk_elems_more es [] post) as A. pose proof (mk_elems_more es [] []) as B.
  rewrite app_nil_r in B. simpl in A, B. rewrite A, B. auto.
Qed.

Context (sd : sdd) (svt : vtree) (f : N -> option N) (fl : N) (pb : path) (pvt : vtree).
Context (RN : rename_vtree f svt = Some pvt).
(** the instantiation of the SDD's variables *)
Definition pull (x : inst) : inst := fun v => match f v with Some w => x w | None => false end.
Definition good (st : stree) (t : ptree) : Prop := (forall x, base t x = models st (pull x)) /\ unit_params t /\ deterministic t.
Lemma good_lift root u p st t : good st t -> good st (lift root u p t).
Proof. intros (A & B & C). split; [intros x; rewrite lift_base; auto|]. split; [apply lift_unit|apply lift_deterministic]; auto. Qed.
Lemma good_true s : good XT (true_tree s).
Proof. split; [intros x; apply true_tree_base|]. split; [apply true_tree_unit|apply true_tree_deterministic]. Qed.

(** What the node map says about a node of the SDD *)
Definition done_at (nm : nmap) (m : mgr) (n : nat) : Prop := forall st q, SRep sd n st -> spath st = Some q ->
  exists i t, nlookup n nm = Some i /\ node_at m i (q ++ pb) t /\ flag_of (m_heap m) i = Some fl /\ In i (m_live m) /\ good st t.
Lemma flag_ext (m m' : mgr) i k : mext fl m m' -> flag_of (m_heap m) i = Some k -> flag_of (m_heap m') i = Some k.
Proof.
  intros X. unfold flag_of. destruct (nth_error (m_heap m) i) as [nd|] eqn:E; [|discriminate]. simpl. intros H.
  rewrite (mext_nth _ _ _ _ _ X E). exact H.
Qed.
Lemma done_ext nm (m m' : mgr) n : mext fl m m' -> done_at nm m n -> done_at nm m' n.
Proof.
  intros X D st q H1 H2. destruct (D st q H1 H2) as (i & t & A & B & C & E & F). exists i, t. split; auto.
  split; [eapply node_at_ext; eauto|]. split; [eapply flag_ext; eauto|]. split; auto. apply (me_live _ _ _ X); auto.
Qed.

(** One element *)
Definition elem_good (st : stree * stree) (te : ptree * ptree * R) : Prop := good (fst st) (tp te) /\ good (snd st) (ts te) /\ tw te = 1.
Definition nonfalse (st : stree * stree) : bool := match snd st with XF => false | _ => true end.
Definition acc_ok (vt : path) (m : mgr) (ps ss : list nat) (sts : list (stree * stree)) (els : list (elem P)) (tes : list (ptree * ptree * R)) : Prop :=
  ps = map e_prime els /\ ss = map e_sub els /\ Forall (fun e => e_param e = pone) els /\
  Forall (fun e => vt_of (m_heap m) (e_prime e) = Some (false :: vt) /\ vt_of (m_heap m) (e_sub e) = Some (true :: vt)) els /\
  Forall2 (ElemRep (m_heap m)) els tes /\ Forall2 elem_good (filter nonfalse sts) tes.
Lemma acc_ext vt (m m' : mgr) ps ss sts els tes : mext fl m m' -> acc_ok vt m ps ss sts els tes -> acc_ok vt m' ps ss sts els tes.
Proof.
  intros X (A & B & C & D & E & F). repeat (split; auto).
  - eapply Forall_impl; [|exact D]. intros e [G H]. split; eapply mext_vt; eauto.
  - eapply Forall2_impl_in; [|exact E]. intros e te _ _ (G & H & K). repeat split; auto; eapply Rep_mext; eauto.
Qed.
Lemma acc_snoc vt (m : mgr) ps ss sts els tes st p1 s1 t1 t2 : acc_ok vt m ps ss sts els tes -> nonfalse st = true ->
  node_at m p1 (false :: vt) t1 -> node_at m s1 (true :: vt) t2 -> good (fst st) t1 -> good (snd st) t2 ->
  acc_ok vt m (ps ++ [p1]) (ss ++ [s1]) (sts ++ [st]) (els ++ [MkE p1 s1 pone]) (tes ++ [(t1, t2, 1)]).
Proof.
  intros (A & B & C & D & E & F) NF [V1 R1] [V2 R2] G1 G2. unfold acc_ok. rewrite !map_app, filter_app. simpl. rewrite NF.
  split; [congruence|]. split; [congruence|]. split; [apply Forall_app; auto|]. split; [apply Forall_app; auto|].
  split; [apply Forall2_app; auto|apply Forall2_app; auto].
  - constructor; auto. repeat split; auto. unfold tw. simpl. symmetry. apply (val_one HP).
  - constructor; auto. repeat split; auto; apply G1 || apply G2.
Qed.

Lemma from_elem_spec nm vt ps ss tm (m : mgr) e st sts els tes l r :
  Inv fl m -> tm_ok tm m -> subtree (m_vt m) (vt ++ pb) = Some (VNode l r) ->
  SRep sd (fst e) (fst st) -> SRep sd (snd e) (snd st) -> below (false :: vt) (fst st) ->
  (snd st = XT \/ snd st = XF \/ below (true :: vt) (snd st)) ->
  done_at nm m (fst e) -> (spath (snd st) <> None -> done_at nm m (snd e)) -> acc_ok (vt ++ pb) m ps ss sts els tes ->
  exists ps' ss' els' tes' tm' m', from_elem sd nm (vt ++ pb) fl (ps, ss, tm, m) e = Ok (ps', ss', tm', m') /\
    Inv fl m' /\ tm_ok tm' m' /\ mext fl m m' /\ acc_ok (vt ++ pb) m' ps' ss' (sts ++ [st]) els' tes'.
Proof.
  intros I T SV S1 S2 [u Hu] B D1 D2 A. unfold from_elem.
  destruct (D1 _ _ S1 Hu) as (pp & t1 & L1 & A1 & F1 & V1 & G1). rewrite L1.
  pose proof (vkid_node _ _ _ _ false SV) as KL. pose proof (vkid_node _ _ _ _ true SV) as KR. rewrite KL, KR.


  replace ((u ++ false :: vt) ++ pb) with (u ++ false :: vt ++ pb) in A1 by (rewrite <- app_assoc; reflexivity).
  destruct (normalize_with_spec val HP fl (get_true gt_fuel) (get_true_spec val HP fl 1) u (false :: vt ++ pb) pp tm m t1 I T A1)
    as (p1 & tm1 & m1 & E1 & I1 & X1 & T1 & N1 & _).
  destruct B as [E|[E|[w Hw]]].
  - rewrite E in S2. inversion S2 as [n p Hn| | |]; subst. unfold sget. rewrite Hn. cbn [get bind s_body].
    rewrite E1. cbn [bind].
    assert (exists s2, subtree (m_vt m1) (true :: vt ++ pb) = Some s2) as [s2 Hs2].
    { rewrite (me_vt _ _ _ X1). simpl. rewrite SV. exists r. reflexivity. }
    destruct (get_true_spec val HP fl 1 (true :: vt ++ pb) tm1 m1 s2 I1 T1 Hs2) as (s1 & tm2 & m2 & E2 & I2 & X2 & T2 & N2 & _).
    unfold gt_fuel. rewrite E2. cbn [bind].
    exists (ps ++ [p1]), (ss ++ [s1]), (els ++ [MkE p1 s1 pone]), (tes ++ [(lift (m_vt m) u (false :: vt ++ pb) t1, true_tree s2, 1)]), tm2, m2.
    split; auto. split; auto. split; auto. assert (mext fl m m2) as X by (eapply mext_trans; eauto). split; auto.
    apply acc_snoc; auto.
    + apply (acc_ext _ _ _ _ _ _ _ _ X A).
    + unfold nonfalse. rewrite E. auto.
    + apply (node_at_ext _ _ _ _ _ _ _ X2 N1).
    + apply good_lift; auto.
    + rewrite E. apply good_true.
  - rewrite E in S2. inversion S2 as [|n p Hn| |]; subst. unfold sget. rewrite Hn. cbn [get bind s_body].
    exists ps, ss, els, tes, tm, m. split; auto. split; auto. split; auto. split; [apply mext_refl|].
    destruct A as (H1 & H2 & H3 & H4 & H5 & H6). repeat (split; auto). rewrite filter_app. simpl. unfold nonfalse at 2. rewrite E. rewrite app_nil_r. auto.
  - destruct (D2 ltac:(rewrite Hw; discriminate) _ _ S2 Hw) as (sp & t2 & L2 & A2 & F2 & V2 & G2).
    replace ((w ++ true :: vt) ++ pb) with (w ++ true :: vt ++ pb) in A2 by (rewrite <- app_assoc; reflexivity).
    destruct (normalize_with_spec val HP fl (get_true gt_fuel) (get_true_spec val HP fl 1) w (true :: vt ++ pb) sp tm1 m1 t2 I1 T1
                (node_at_ext _ _ _ _ _ _ _ X1 A2)) as (s1 & tm2 & m2 & E2 & I2 & X2 & T2 & N2 & _).
    exists (ps ++ [p1]), (ss ++ [s1]), (els ++ [MkE p1 s1 pone]), (tes ++ [(lift (m_vt m) u (false :: vt ++ pb) t1, lift (m_vt m1) w (true :: vt ++ pb) t2, 1)]), tm2, m2.
    assert (mext fl m m2) as X by (eapply mext_trans; eauto). split.
    + unfold sget. destruct (snd st) as [| |q l'|q es] eqn:Es; simpl in Hw; try discriminate.
      * inversion S2; subst. match goal with H : sd (snd e) = _ |- _ => rewrite H end. cbn [get bind s_body]. rewrite L2.
        rewrite E1. cbn [bind]. rewrite E2. cbn [bind]. auto.
      * apply SRep_dec_inv in S2 as (ces & Hn & _). rewrite Hn. cbn [get bind s_body]. rewrite L2.
        rewrite E1. cbn [bind]. rewrite E2. cbn [bind]. auto.
    + split; auto. split; auto. split; auto. apply acc_snoc; auto.
      * apply (acc_ext _ _ _ _ _ _ _ _ X A).
      * unfold nonfalse. destruct (snd st); auto. discriminate.
      * apply (node_at_ext _ _ _ _ _ _ _ X2 N1).
      * apply good_lift; auto.
      * apply good_lift; auto.
Qed.
Lemma from_elems_spec nm vt es sts : Forall2 (fun e t => SRep sd (fst e) (fst t) /\ SRep sd (snd e) (snd t)) es sts ->
  Forall (fun e => below (false :: vt) (fst e) /\ (snd e = XT \/ snd e = XF \/ below (true :: vt) (snd e))) sts ->
  forall ps ss tm (m : mgr) sts0 els tes l r, Inv fl m -> tm_ok tm m -> subtree (m_vt m) (vt ++ pb) = Some (VNode l r) ->
  (forall e st, In (e, st) (combine es sts) -> done_at nm m (fst e) /\ (spath (snd st) <> None -> done_at nm m (snd e))) ->
  acc_ok (vt ++ pb) m ps ss sts0 els tes ->
  exists ps' ss' els' tes' tm' m', foldM (from_elem sd nm (vt ++ pb) fl) es (ps, ss, tm, m) = Ok (ps', ss', tm', m') /\
    Inv fl m' /\ tm_ok tm' m' /\ mext fl m m' /\ acc_ok (vt ++ pb) m' ps' ss' (sts0 ++ sts) els' tes'.
Proof.
  induction 1 as [|e st es sts [S1 S2] F IH]; intros FB ps ss tm m sts0 els tes l r I T SV D A.
  - exists ps, ss, els, tes, tm, m. rewrite app_nil_r. repeat (split; auto using mext_refl).
  - inversion FB as [|? ? [B1 B2] FB']; subst. destruct (D e st) as [D1 D2]; [left; auto|].
    destruct (from_elem_spec nm vt ps ss tm m e st sts0 els tes l r I T SV S1 S2 B1 B2 D1 D2 A)
      as (ps1 & ss1 & els1 & tes1 & tm1 & m1 & E1 & I1 & T1 & X1 & A1).
    cbn [foldM]. rewrite E1. cbn [bind].
    destruct (IH FB' ps1 ss1 tm1 m1 (sts0 ++ [st]) els1 tes1 l r I1 T1) as (ps2 & ss2 & els2 & tes2 & tm2 & m2 & E2 & I2 & T2 & X2 & A2); auto.
    + rewrite (me_vt _ _ _ X1). auto.
    + intros e' st' Hin. destruct (D e' st') as [D3 D4]; [right; auto|]. split; [eapply done_ext; eauto|]. intros Z. eapply done_ext; eauto.
    + exists ps2, ss2, els2, tes2, tm2, m2. split; auto. split; auto. split; auto. split; [eapply mext_trans; eauto|].
      rewrite <- app_assoc in A2. exact A2.
Qed.

Lemma good_dec vt sts tes p : Forall2 elem_good (filter nonfalse sts) tes ->
  ForallOrdPairs (fun e1 e2 => forall x, models (fst e1) x && models (fst e2) x = false) sts ->
  good (XD p sts) (TDec tes) /\ (swf vt (XD p sts) -> tes <> []).
Proof.
  intros F D. split.
  - split; [|split].
    + intros x. simpl. clear D. revert tes F. induction sts as [|st sts IH]; intros tes F; simpl in F |- *.
      * inversion F; subst. auto.
      * destruct (nonfalse st) eqn:N; simpl in F.
        -- inversion F as [|? te ? tes' (G1 & G2 & G3) F']; subst. simpl. rewrite (IH _ F'). f_equal.
           destruct G1 as [G1 _], G2 as [G2 _]. unfold tp, ts in *. rewrite G1, G2. auto.
        -- rewrite (IH _ F). unfold nonfalse in N. destruct (snd st) eqn:E; try discriminate. rewrite andb_false_r. auto.
    + apply all_nodes_dec. split; apply Forall_forall; intros te Hte; destruct (Forall2_in_r _ _ _ _ F Hte) as (st & _ & G1 & G2 & G3); auto.
      split; [apply G1|apply G2].
    + apply all_nodes_dec. split.
      * revert tes F. induction D as [|st sts D1 D2 IH]; intros tes F; simpl in F.
        -- inversion F; subst. constructor.
        -- destruct (nonfalse st) eqn:N; [|apply IH; auto]. inversion F as [|? te ? tes' (G1 & G2 & G3) F']; subst. constructor; auto.
           apply Forall_forall. intros te' Hte' x. destruct (Forall2_in_r _ _ _ _ F' Hte') as (st' & Hst' & G4 & _ & _).
           destruct G1 as [G1 _], G4 as [G4 _]. rewrite G1, G4. rewrite Forall_forall in D1. apply D1. apply filter_In in Hst'. tauto.
      * apply Forall_forall. intros te Hte. destruct (Forall2_in_r _ _ _ _ F Hte) as (st & _ & G1 & G2 & _). split; [apply G1|apply G2].
  - intros W Z. subst tes. apply swf_dec in W as (_ & _ & _ & EX & _). apply Exists_exists in EX as (e & He & Ne).
    inversion F as [E|]; subst. assert (In e (filter nonfalse sts)) as K by (apply filter_In; split; auto; unfold nonfalse; destruct (snd e); congruence).
    rewrite <- E in K. destruct K.
Qed.
Lemma good_perm p sts tes tes' : Permutation tes tes' -> good (XD p sts) (TDec tes) -> good (XD p sts) (TDec tes').
Proof.
  intros PM (A & B & C). split; [|split].
  - intros x. rewrite <- A. simpl. symmetry. apply existsb_perm; auto.
  - apply all_nodes_dec in B as [B1 B2]. apply all_nodes_dec. split; eapply Permutation_Forall; eauto.
  - apply all_nodes_dec in C as [C1 C2]. apply all_nodes_dec. split; [|eapply Permutation_Forall; eauto].
    eapply FOP_perm; [|exact PM|exact C1]. intros a b H x. rewrite andb_comm. auto.
Qed.

Lemma rename_covers t : forall t', rename_vtree f t = Some t' -> covers f t.
Proof.
  induction t as [v|a IHa b IHb]; simpl; intros t' E.
  - intros w [<-|[]]. destruct (f v); [discriminate|discriminate].
  - destruct (rename_vtree f a) eqn:Ea; [|discriminate]. destruct (rename_vtree f b) eqn:Eb; [|discriminate].
    apply covers_node. eauto.
Qed.
Definition is_dec (sn : snode) (es : list (nat * nat)) : Prop := s_body sn = SDec es.
Lemma spath_body n st : SRep sd n st -> spath st = None -> exists p, sd n = Some (MkS p STrue) \/ sd n = Some (MkS p SFalse).
Proof. intros H E. inversion H; subst; try discriminate; eauto. Qed.

Lemma from_step_spec (d : pdata) nm tm (m : mgr) n st : Inv fl m -> tm_ok tm m -> subtree (m_vt m) pb = Some pvt ->
  (forall v, In v (leaves pvt) -> v <> 0%N) ->
  (forall q s, subtree svt q = Some s -> d q = Some (q ++ pb)) -> SRep sd n st -> swf svt st ->
  (forall p es, sd n = Some (MkS p (SDec es)) -> forall e, In e es -> done_at nm m (fst e) /\ 
     (forall st', SRep sd (snd e) st' -> spath st' <> None -> done_at nm m (snd e))) ->
  exists nm' tm' m', from_step sd d fl (nm, tm, m) n = Ok (nm', tm', m') /\ Inv fl m' /\ tm_ok tm' m' /\ mext fl m m' /\
    done_at nm' m' n /\ (forall k, k <> n -> nlookup k nm' = nlookup k nm).
Proof.
  intros I T Spb NZ Hd SR W CH. unfold from_step.
  assert (forall nm' m' i t q, spath st = Some q -> nlookup n nm' = Some i -> node_at m' i (q ++ pb) t -> flag_of (m_heap m') i = Some fl ->
    In i (m_live m') -> good st t -> done_at nm' m' n) as K.
  { intros nm' m' i t q Eq E1 E2 E3 E4 E5 st' q' SR' Eq'. rewrite (SRep_fun _ _ _ _ SR' SR) in *. rewrite Eq in Eq'. injection Eq' as <-. eauto 10. }
  destruct st as [| |q l|q sts].
  - inversion SR; subst. unfold sget. match goal with H : sd n = _ |- _ => rewrite H end. cbn [get bind s_body].
    exists nm, tm, m. repeat (split; auto using mext_refl). intros st' q' SR' E. rewrite (SRep_fun _ _ _ _ SR' SR) in E. discriminate.
  - inversion SR; subst. unfold sget. match goal with H : sd n = _ |- _ => rewrite H end. cbn [get bind s_body].
    exists nm, tm, m. repeat (split; auto using mext_refl). intros st' q' SR' E. rewrite (SRep_fun _ _ _ _ SR' SR) in E. discriminate.
  - inversion SR; subst. unfold sget. match goal with H : sd n = _ |- _ => rewrite H end. cbn [get bind s_body s_vt].
    destruct W as [W NL]. rewrite (Hd _ _ W). cbn [get bind].
    pose proof (rename_subtree _ _ _ RN q) as RS. rewrite W in RS. destruct RS as (s' & E1 & E2). simpl in E1.
    destruct (f (Z.abs_N l)) as [w|] eqn:Ef; [|discriminate]. injection E1 as <-.
    assert (subtree (m_vt m) (q ++ pb) = Some (Leaf w)) as Sw by (rewrite subtree_app, Spb; auto). rewrite Sw.
    assert (w <> 0%N) as NW.
    { apply NZ. apply nodes_root in E2. eapply (nodes_leaves [] pvt q (Leaf w)); eauto. left; auto. }
    set (l' := if Z.ltb 0 l then Z.of_N w else (- Z.of_N w)%Z).
    assert (Z.abs_N l' = w /\ Z.ltb 0 l' = Z.ltb 0 l) as [La Ls].
    { unfold l'. destruct (Z.ltb 0 l) eqn:El; split; try lia. }
    destruct (GetUniqueNode m (MkN (q ++ pb) fl (BLit l'))) as [i m'] eqn:EU.
    assert (NO : node_ok (m_vt m) (m_heap m) (length (m_heap m)) (MkN (q ++ pb) fl (BLit l'))).
    { unfold node_ok. simpl. unfold lit_var. rewrite La. exact Sw. }
    destruct (intern_spec val HP fl m (MkN (q ++ pb) fl (BLit l')) i m' I eq_refl Logic.I NO EU) as (I' & X & L & nd' & E3 & V & F & B).
    simpl in B, V. destruct (n_body nd') as [l2| |] eqn:Eb; try contradiction. subst l2.
    exists ((n, i) :: nm), tm, m'. split; auto. split; auto. split; [eapply tm_ok_ext; eauto|]. split; auto. split.
    + apply (K _ _ i (TLit l') q); auto.
      * rewrite nlookup_cons, Nat.eqb_refl. auto.
      * split; [unfold vt_of; rewrite E3; simpl; congruence|]. econstructor; eauto.
      * unfold flag_of. rewrite E3. simpl. congruence.
      * split; [|split; split; exact Logic.I]. intros x. simpl. unfold lit_sat, pull. rewrite La, Ls, Ef. auto.
    + intros k Hk. rewrite nlookup_cons. apply Nat.eqb_neq in Hk. rewrite Hk. auto.
  - destruct (SRep_dec_inv _ _ _ _ SR) as (es & Hn & FS). unfold sget. rewrite Hn. cbn [get bind s_body s_vt].
    pose proof W as W'. apply swf_dec in W as ((a & b & Hab) & W1 & W2 & EX & DJ). rewrite (Hd _ _ Hab). cbn [get bind].
    pose proof (rename_subtree _ _ _ RN q) as RS. rewrite Hab in RS. destruct RS as (s' & E1 & E2). simpl in E1.
    destruct (rename_vtree f a) as [a'|]; [|discriminate]. destruct (rename_vtree f b) as [b'|]; [|discriminate]. injection E1 as <-.
    assert (subtree (m_vt m) (q ++ pb) = Some (VNode a' b')) as Sw by (rewrite subtree_app, Spb; auto).
    destruct (from_elems_spec nm q es sts FS W2 [] [] tm m [] [] [] a' b' I T Sw) as (ps & ss & els & tes & tm1 & m1 & E3 & I1 & T1 & X1 & A1).
    + intros e st' Hin. destruct (CH _ _ Hn e) as [D1 D2]; [eapply in_combine_l; eauto|]. split; auto. intros NE. eapply D2; [|exact NE].
      clear - FS Hin. induction FS as [|x y es sts [R1 R2] FS IH]; simpl in Hin; [destruct Hin|]. destruct Hin as [Hin|Hin]; auto. injection Hin as <- <-. auto.
    + repeat split; constructor.
    + rewrite E3. cbn [bind]. destruct A1 as (A1 & A2 & A3 & A4 & A5 & A6). simpl in A6.
      destruct (good_dec svt sts tes q A6 DJ) as [GD NE]. specialize (NE W').
      assert (els <> []) as NEe by (intros Z; subst els; inversion A5; subst; congruence).
      assert (exists post, repeat (@pone P) (length es) = map e_param els ++ post) as [post Hpost].
      { assert (map e_param els = repeat pone (length els)) as ->.
        { clear - A3. induction A3 as [|e els He A3 IH]; simpl; auto. rewrite He, IH. auto. }
        assert (length els <= length es)%nat as LE.
        { assert (length els = length (filter nonfalse sts)) as ->.
          { clear - A5 A6. revert A6. generalize (filter nonfalse sts). induction A5; intros l0 A6; inversion A6; subst; simpl; auto. }
          replace (length es) with (length sts) by (clear - FS; induction FS; simpl; auto).
          clear. induction sts as [|s sts IH]; simpl; auto. destruct (nonfalse s); simpl; lia. }
        exists (repeat pone (length es - length els)). rewrite <- repeat_app. f_equal. lia. }
      assert (ps <> []) as NEp by (subst ps; destruct els; [congruence|discriminate]).
      destruct ps as [|p0 ps']; [congruence|]. cbn [assert bind]. rewrite A1, A2, Hpost. rewrite new_dec_more by auto.
      destruct (new_dec_spec val HP fl m1 (q ++ pb) els tes I1) as (i & m2 & tes' & E4 & I2 & X2 & L2 & PT & N2 & F2); auto.
      { exists a', b'. rewrite (me_vt _ _ _ X1). auto. }
      rewrite E4. cbn [bind]. exists ((n, i) :: nm), tm1, m2. split; auto. split; auto. split; [eapply tm_ok_ext; eauto|].
      split; [eapply mext_trans; eauto|]. split.
      * apply (K _ _ i (TDec tes') q); auto.
        -- rewrite nlookup_cons, Nat.eqb_refl. auto.
        -- eapply good_perm; eauto.
      * intros k Hk. rewrite nlookup_cons. apply Nat.eqb_neq in Hk. rewrite Hk. auto.
Qed.

(** Nodes reachable in the SDD, and sdd_topological_sort: every node after its (non-constant) children. *)
Inductive sreach : nat -> nat -> Prop :=
| sreach_refl n : sreach n n
| sreach_step n p es e c k : sd n = Some (MkS p (SDec es)) -> In e es -> c = fst e \/ c = snd e -> sreach c k -> sreach n k.
Definition const_node (n : nat) : Prop := exists p, sd n = Some (MkS p STrue) \/ sd n = Some (MkS p SFalse).
Definition topo_order (root : nat) (order : list nat) : Prop :=
  In root order /\ (forall n, In n order -> sreach root n) /\
  forall L1 n L2 p es e, order = L1 ++ n :: L2 -> sd n = Some (MkS p (SDec es)) -> In e es ->
    (const_node (fst e) \/ In (fst e) L1) /\ (const_node (snd e) \/ In (snd e) L1).
Lemma sreach_rep n k : sreach n k -> forall st, SRep sd n st -> swf svt st -> exists st', SRep sd k st' /\ swf svt st'.
Proof.
  induction 1 as [n|n p es e c k Hn He Hc R IH]; intros st SR W; eauto.
  inversion SR; subst; try congruence. apply swf_dec in W as (_ & W1 & _).
  match goal with H : sd n = Some (MkS ?q (SDec ?es')) |- _ => rewrite Hn in H; injection H; intros; subst end.
  match goal with F : Forall2 _ _ _ |- _ => destruct (Forall2_in_l _ _ _ _ F He) as (st' & Hst' & R1 & R2) end.
  rewrite Forall_forall in W1. destruct (W1 _ Hst'). destruct Hc as [-> | ->]; eauto.
Qed.

Lemma from_loop_spec (d : pdata) : (forall v, In v (leaves pvt) -> v <> 0%N) ->
  (forall q s, subtree svt q = Some s -> d q = Some (q ++ pb)) ->
  forall L2 L1, (forall n, In n (L1 ++ L2) -> exists st, SRep sd n st /\ swf svt st) ->
  (forall L1' n L2' p es e, L1 ++ L2 = L1' ++ n :: L2' -> sd n = Some (MkS p (SDec es)) -> In e es ->
    (const_node (fst e) \/ In (fst e) L1') /\ (const_node (snd e) \/ In (snd e) L1')) ->
  forall nm tm (m : mgr), Inv fl m -> tm_ok tm m -> subtree (m_vt m) pb = Some pvt ->
  (forall n, In n L1 -> done_at nm m n) ->
  exists nm' tm' m', foldM (from_step sd d fl) L2 (nm, tm, m) = Ok (nm', tm', m') /\ Inv fl m' /\ tm_ok tm' m' /\ mext fl m m' /\
    (forall n, In n (L1 ++ L2) -> done_at nm' m' n).
Proof.
  intros NZ Hd. induction L2 as [|n L2 IH]; intros L1 HR HT nm tm m I T Spb D.
  - exists nm, tm, m. rewrite app_nil_r. repeat (split; auto using mext_refl).
  - destruct (HR n) as (st & SR & W); [apply in_or_app; right; left; auto|].
    destruct (from_step_spec d nm tm m n st I T Spb NZ Hd SR W) as (nm1 & tm1 & m1 & E1 & I1 & T1 & X1 & D1 & O1).
    + intros p es Hn e He. destruct (HT L1 n L2 p es e eq_refl Hn He) as [C1 C2].
      assert (SRep sd (fst e) XT \/ True) as _ by auto.
      inversion SR; subst; try congruence.
      match goal with H : sd n = Some (MkS ?q (SDec ?es')), H' : sd n = Some (MkS p (SDec es)) |- _ => rewrite H' in H; injection H; intros; subst end.
      match goal with F : Forall2 _ _ _ |- _ => destruct (Forall2_in_l _ _ _ _ F He) as (st' & Hst' & R1 & R2) end.
      apply swf_dec in W as (_ & _ & W2 & _). rewrite Forall_forall in W2. destruct (W2 _ Hst') as [[u Hu] _].
      split.
      * destruct C1 as [(pp & [C1|C1])|C1]; auto; inversion R1; subst; try congruence;
          match goal with H : _ = fst st' |- _ => rewrite <- H in Hu; discriminate end.
      * intros st2 SR2 NE. destruct C2 as [(pp & [C2|C2])|C2]; auto; inversion SR2; subst; simpl in NE; congruence.
    + cbn [foldM]. rewrite E1. cbn [bind].
      destruct (IH (L1 ++ [n])) with (nm := nm1) (tm := tm1) (m := m1) as (nm2 & tm2 & m2 & E2 & I2 & T2 & X2 & D2).
      * intros k Hk. rewrite <- app_assoc in Hk. auto.
      * intros L1' k L2' p es e Hk. rewrite <- app_assoc in Hk. exact (HT L1' k L2' p es e Hk).
      * auto.
      * auto.
      * rewrite (me_vt _ _ _ X1). auto.
      * intros k Hk. destruct (Nat.eq_dec k n) as [->|NE]; auto.
        apply in_app_or in Hk as [Hk|[Hk|[]]]; [|congruence].
        intros st' q' SR' Eq'. destruct (done_ext _ _ _ _ X1 (D k Hk) st' q' SR' Eq') as (i & t & A & B). exists i, t.
        rewrite (O1 k NE). auto.
      * exists nm2, tm2, m2. rewrite <- app_assoc in D2. split; [auto|]. split; [auto|]. split; [auto|]. split; [eapply mext_trans; eauto|auto].
Qed.

Theorem from_sdd_spec order root st (d : pdata) (m : mgr) : Inv fl m -> subtree (m_vt m) pb = Some pvt ->
  (forall v, In v (leaves pvt) -> v <> 0%N) -> SRep sd root st -> swf svt st -> topo_order root order ->
  (st = XF -> FromSdd sd order root svt fl (Some pb) d m = Ok (None, d, m)) /\
  (st <> XF -> exists i t d' m', FromSdd sd order root svt fl (Some pb) d m = Ok (Some i, d', m') /\ Inv fl m' /\ mext fl m m' /\
     node_at m' i pb t /\ conforms pvt t /\ In i (m_live m') /\ (spath st <> None -> flag_of (m_heap m') i = Some fl) /\ good st t /\
     (forall q, d' q = if match spath st with None => false | _ => true end
                       then match subtree svt q with Some _ => None | None => d q end else d q)).
Proof.
  intros I Spb NZ SR W (T1 & T2 & T3). split.
  - intros ->. inversion SR; subst. unfold FromSdd, sget. match goal with H : sd root = _ |- _ => rewrite H end. reflexivity.
  - intros NF. unfold FromSdd.
    assert (spath st = None -> st = XT) as KT by (destruct st; try discriminate; congruence).
    destruct (spath st) as [q|] eqn:Eq.
    2:{ rewrite (KT eq_refl) in *. inversion SR; subst. unfold sget. match goal with H : sd root = _ |- _ => rewrite H end. cbn [get bind s_body].
        destruct (get_true_node_spec val HP fl m pb pvt I Spb) as (i & m' & E & I' & X & N & L). rewrite E. cbn [bind].
        exists i, (true_tree pvt), d, m'. split; auto. split; auto. split; auto. split; auto. split; [apply true_tree_conforms|].
        split; auto. split; [congruence|]. split; [apply good_true|auto]. }
    destruct (serialize_vtree_spec [] svt) as (L & EL & PL & _).
    pose proof (rename_covers _ _ RN) as CV.
    pose proof (serialize_shift f pb _ _ _ RN CV EL) as EP.
    destruct (tag_spec f pb svt L d CV EL) as (d1 & ET & Hd1 & Hd2).
    destruct (from_loop_spec d1 NZ Hd1 order []) with (nm := @nil (nat * nat)) (tm := @nil (nat * nat)) (m := m) as (nm & tm & m1 & E1 & I1 & TM1 & X1 & D1).
    + intros n Hn. eapply sreach_rep; eauto.
    + exact T3.
    + auto.
    + apply tm_ok_nil.
    + auto.
    + intros n [].
    + destruct (D1 root T1 st q SR Eq) as (i & t & L1 & N1 & F1 & V1 & G1).
      destruct (normalize_with_spec val HP fl (get_true gt_fuel) (get_true_spec val HP fl 1) q pb i tm m1 t I1 TM1 N1)
        as (j & tm2 & m2 & E2 & I2 & X2 & TM2 & N2 & U1 & U2).
      exists j, (lift (m_vt m1) q pb t), (fold_left (fun d x => set_pdata d (fst x) None) L d1), m2. split.
      * assert (exists b, sd root = Some b /\ s_body b <> STrue /\ s_body b <> SFalse) as (b & Hb & B1 & B2).
        { inversion SR; subst; simpl in Eq; try discriminate; eexists; (split; [eassumption|split; discriminate]). }
        unfold sget. rewrite Hb. cbn [get bind].
        destruct (s_body b); try congruence; cbn [get bind]; rewrite Spb; cbn [get bind]; rewrite EP; cbn [bind]; rewrite EL; cbn [bind];
          rewrite ET; cbn [bind];
          match goal with |- context [foldM ?g order ?z] => replace (foldM g order z) with (Ok (nm, tm, m1)) by (symmetry; exact E1) end;
          cbn [bind]; rewrite L1;
          match goal with |- context [bind ?z _] => replace z with (Ok (j, tm2, m2)) by (symmetry; exact E2) end;
          cbn [bind fst]; reflexivity.
      * split; auto. split; [eapply mext_trans; eauto|]. split; auto.
        destruct (node_at_conforms val m2 j pb _ (proj1 I2) N2) as (s & Hs & Cs).
        rewrite (me_vt _ _ _ X2), (me_vt _ _ _ X1), Spb in Hs. injection Hs as <-. split; auto.
        assert (In j (m_live m2) /\ flag_of (m_heap m2) j = Some fl) as [LJ FJ].
        { destruct q as [|b q].
          - rewrite (U1 eq_refl). split; [apply (me_live _ _ _ X2); auto|eapply flag_ext; eauto].
          - destruct (U2 ltac:(discriminate)). auto. }
        split; auto. split; auto. split; [apply good_lift; auto|].
        intros q'. rewrite clear_pdata. destruct (subtree svt q') as [s'|] eqn:Es.
        -- replace (existsb (path_eqb q') (map fst L)) with true; auto. symmetry. apply existsb_path.
           apply in_map_iff. exists (q', s'). split; auto. apply (Permutation_in _ (Permutation_sym PL)), nodes_root. auto.
        -- destruct (existsb (path_eqb q') (map fst L)) eqn:EX; auto. apply existsb_path, in_map_iff in EX as ([q2 s2] & EE & Hin).
           simpl in EE. subst q2. apply (Permutation_in _ PL), nodes_root in Hin. congruence.
Qed.
End FromSdd.

(** ** Counting under a renaming of the variables *)
Lemma rename_leaves f t : forall t', rename_vtree f t = Some t' -> Forall2 (fun v w => f v = Some w) (leaves t) (leaves t').
Proof.
  induction t as [v|a IHa b IHb]; simpl; intros t' E.
  - destruct (f v) eqn:Ef; [|discriminate]. injection E as <-. constructor; auto.
  - destruct (rename_vtree f a); [|discriminate]. destruct (rename_vtree f b); [|discriminate]. injection E as <-. simpl. apply Forall2_app; auto.
Qed.
Lemma Forall2_inj (f : N -> option N) vs ws : Forall2 (fun v w => f v = Some w) vs ws -> NoDup ws ->
  NoDup vs /\ forall u v (w : N), In u vs -> In v vs -> f u = Some w -> f v = Some w -> u = v.
Proof.
  induction 1 as [|v w vs ws E F IH]; intros ND; [split; [constructor|intros ? ? ? []]|].
  inversion ND as [|? ? N1 N2]; subst. destruct (IH N2) as [I1 I2].
  assert (forall u w', In u vs -> f u = Some w' -> In w' ws) as K.
  { intros u w' Hu Eu. destruct (Forall2_in_l _ _ _ _ F Hu) as (w2 & Hw & E2). congruence. }
  split.
  - constructor; auto. intros Hv. apply N1. eapply K; eauto.
  - intros a b c [<-|Ha] [<-|Hb] Ea Eb; auto.
    + exfalso. apply N1. rewrite E in Ea. injection Ea as ->. eapply K; eauto.
    + exfalso. apply N1. rewrite E in Eb. injection Eb as ->. eapply K; eauto.
    + eauto.
Qed.
Lemma count_rename (f : N -> option N) (D : list N) (g : inst -> bool) : (forall y y', (forall v, In v D -> y v = y' v) -> g y = g y') ->
  (forall u v w, In u D -> In v D -> f u = Some w -> f v = Some w -> u = v) ->
  forall vs ws, Forall2 (fun v w => f v = Some w) vs ws -> incl vs D -> forall x0 y0,
  (forall v, In v D -> ~ In v vs -> pull f x0 v = y0 v) -> count_over ws (fun x => g (pull f x)) x0 = count_over vs g y0.
Proof.
  intros HD INJ vs ws F. induction F as [|v w vs ws E F IH]; intros IN x0 y0 H; simpl.
  - rewrite (HD (pull f x0) y0); auto.
  - assert (forall b, count_over ws (fun x => g (pull f x)) (upd x0 w b) = count_over vs g (upd y0 v b)) as K.
    { intros b. apply IH; [intros u Hu; apply IN; right; auto|]. intros u Hu Nu. unfold upd at 2. destruct (N.eqb u v) eqn:Euv.
      - apply N.eqb_eq in Euv. subst u. unfold pull. rewrite E. unfold upd. rewrite N.eqb_refl. auto.
      - apply N.eqb_neq in Euv. rewrite <- H; auto; [|intros [Z|Z]; congruence]. unfold pull. destruct (f u) as [w'|] eqn:Eu; auto.
        unfold upd. destruct (N.eqb w' w) eqn:Ew; auto. apply N.eqb_eq in Ew. subst w'. exfalso. apply Euv. apply (INJ u v w); auto. apply IN. left; auto. }
    rewrite !K. auto.
Qed.

Lemma covers_or f t : covers f t \/ exists v, In v (leaves t) /\ f v = None.
Proof.
  unfold covers. induction t as [v|a IHa b IHb]; simpl.
  - destruct (f v) eqn:E; [left|right; eauto]. intros w [<-|[]]. congruence.
  - destruct IHa as [IHa|(v & Hv & E)]; [|right; exists v; rewrite in_app_iff; auto].
    destruct IHb as [IHb|(v & Hv & E)]; [|right; exists v; rewrite in_app_iff; auto].
    left. intros v Hv. apply in_app_iff in Hv as [Hv|Hv]; auto.
Qed.
Lemma last_bad {A} (Q : A -> Prop) l : (forall a, Q a \/ ~ Q a) -> forall x, In x l -> ~ Q x ->
  exists L1 j L2, l = L1 ++ j :: L2 /\ ~ Q j /\ forall k, In k L2 -> Q k.
Proof.
  intros D. induction l as [|a l IH] using rev_ind; intros x Hx Nx; [destruct Hx|].
  destruct (D a) as [Qa|Na].
  - apply in_app_iff in Hx as [Hx|[->|[]]]; [|contradiction]. destruct (IH x Hx Nx) as (L1 & j & L2 & E & Nj & H).
    exists L1, j, (L2 ++ [a]). rewrite E, <- app_assoc. split; auto. split; auto. intros k Hk. apply in_app_iff in Hk as [Hk|[<-|[]]]; auto.
  - exists l, a, []. split; auto. split; auto. intros k [].
Qed.

(** ** Final forms: C33 *)
Section Final.
Context {P : pops} (val : P -> R) (HP : pexact P val).
(** [represents]: node [i] of the manager represents the SDD [st] (renamed by [f]) with parameters one *)
Definition represents (f : N -> option N) (pvt : vtree) (pb : path) (st : stree) (m : mgr P) (i : nat) : Prop :=
  exists t, vt_of (m_heap m) i = Some pb /\ Rep val (m_heap m) i t /\ In i (m_live m) /\ conforms pvt t /\ deterministic t /\ positive t /\
    (forall x, base t x = models st (pull f x)) /\ (forall x, weight t x = if models st (pull f x) then 1 else 0).
Theorem from_sdd_full sd svt f fl pb pvt order root st (d : pdata) (m : mgr P) : rename_vtree f svt = Some pvt ->
  Inv val fl m -> subtree (m_vt m) pb = Some pvt -> (forall v, In v (leaves pvt) -> v <> 0%N) ->
  SRep sd root st -> swf svt st -> topo_order sd root order ->
  ((forall y, models st y = false) -> FromSdd sd order root svt fl (Some pb) d m = Ok (None, d, m)) /\
  ((exists y, models st y = true) -> exists i d' m', FromSdd sd order root svt fl (Some pb) d m = Ok (Some i, d', m') /\
     Inv val fl m' /\ mext fl m m' /\ represents f pvt pb st m' i /\
     (forall q, d' q = None \/ d' q = d q) /\ (forall q, subtree svt q = None -> d' q = d q) /\
     ((forall q, d q = None) -> forall q, d' q = None) /\
     forall L y0, SerializePsddNodes (m_heap m') [i] = Ok L -> ModelCount (m_heap m') L = Ok (count_over (leaves svt) (models st) y0)).
Proof.
  intros RN I Spb NZ SR W TO. destruct (from_sdd_spec val HP sd svt f fl pb pvt RN order root st d m I Spb NZ SR W TO) as [K1 K2].
  assert (NDp : NoDup (leaves pvt)).
  { apply nodes_root in Spb. eapply nodes_leaves_nodup; eauto. apply (wf_leaves _ (proj1 I)). }
  destruct (Forall2_inj f _ _ (rename_leaves f svt pvt RN) NDp) as [NDs INJ].
  split.
  - intros U. apply K1. destruct st as [| |q l|q es]; auto; exfalso; destruct (swf_sat svt _ NDs W) as [x Hx]; try discriminate; rewrite U in Hx; discriminate.
  - intros [y0 Hy0]. destruct K2 as (i & t & d' & m' & E & I' & X & [N1 N2] & C & L & F & (G1 & G2 & G3) & D); [intros ->; discriminate|].
    exists i, d', m'. split; auto. split; auto. split; auto. split; [|split; [|split; [|split]]].
    + exists t. split; auto. split; auto. split; auto. split; auto. split; auto. split; [apply unit_positive; auto|]. split; auto.
      intros x. rewrite <- G1. apply unit_weight; auto.
    + intros q. rewrite D. destruct (spath st); auto. destruct (subtree svt q); auto.
    + intros q Hq. rewrite D, Hq. destruct (spath st); auto.
    + intros Z q. rewrite D, Z. destruct (spath st); auto. destruct (subtree svt q); auto.
    + intros L' z EL. assert (psdd_at val m' i pvt t) as A.
      { split; [apply I'|]. split; auto. exists pb. split; auto. rewrite (me_vt _ _ _ X). auto. }
      rewrite (count_full val m' i pvt t L' (fun _ => false) A G3 EL). f_equal.
      rewrite (count_over_ext _ _ _ _ G1). apply (count_rename f (leaves svt)); auto.
      * intros y y' Hy. destruct (spath st) as [q|] eqn:Eq; [|destruct st; try discriminate; auto].
        assert (exists s, subtree svt q = Some s) as [s Hs].
        { destruct st; simpl in Eq; try discriminate; injection Eq as ->.
          - destruct W as [W _]. eauto.
          - apply swf_dec in W as ((a & b & Hab) & _). eauto. }
        eapply models_ext; eauto. intros v Hv. apply Hy. eapply (nodes_leaves [] svt q s); eauto. apply nodes_root. auto.
      * apply rename_leaves. auto.
      * intros v Hv. auto.
      * intros v Hv Nv. contradiction.
Qed.
Theorem from_sdd_variables sd svt fl order root (d : pdata) (m : mgr P) vars : NoDup (leaves (m_vt m)) -> NoDup vars -> vars <> [] ->
  (forall pb pvt, subtree (m_vt m) pb = Some pvt -> (forall v, In v (leaves pvt) <-> In v vars) ->
     FromSddVariables sd order root svt fl vars d m = FromSdd sd order root svt fl (Some pb) d m) /\
  ((forall pb pvt, subtree (m_vt m) pb = Some pvt -> ~ (forall v, In v (leaves pvt) <-> In v vars)) ->
     forall n, sd root = Some n -> s_body n <> SFalse -> FromSddVariables sd order root svt fl vars d m = UB).
Proof.
  intros ND NV NE. unfold FromSddVariables. pose proof (subvtree_spec [] (m_vt m) vars ND NV NE) as K.
  destruct (SubVtreeByVariables [] (m_vt m) vars) as [[q s]|]; split.
  - intros pb pvt Spb HV. destruct K as [K1 K2]. simpl. apply nodes_root in Spb.
    pose proof (helper_complete [] (m_vt m) vars pb pvt ND Spb (fun v => proj1 (HV v)) (fun v => proj2 (HV v))) as H1. pose proof (helper_complete [] (m_vt m) vars q s ND K1 (fun v => proj1 (K2 v)) (fun v => proj2 (K2 v))) as H2. congruence.
  - intros Z. exfalso. destruct K as [K1 K2]. apply nodes_root in K1. eapply Z; eauto.
  - intros pb pvt Spb HV. exfalso. apply nodes_root in Spb. eapply K; eauto.
  - intros Z n Hn Nn. simpl. unfold FromSdd, sget. rewrite Hn. cbn [get bind]. destruct (s_body n); auto. congruence.
Qed.
Theorem convert_full sd svt f fl order root st (d : pdata) (m0 m : mgr P) : GetPsddManagerFromSddVtree svt f = Ok m0 ->
  Inv val fl m -> m_vt m = m_vt m0 -> (forall v w, In v (leaves svt) -> f v = Some w -> w <> 0%N) ->
  SRep sd root st -> swf svt st -> topo_order sd root order ->
  ((forall y, models st y = false) -> ConvertSddToPsdd sd order root svt fl d m = Ok (None, d, m)) /\
  ((exists y, models st y = true) -> exists i d' m', ConvertSddToPsdd sd order root svt fl d m = Ok (Some i, d', m') /\
     Inv val fl m' /\ mext fl m m' /\ represents f (m_vt m0) [] st m' i).
Proof.
  intros E0 I EV NZ SR W TO. unfold GetPsddManagerFromSddVtree in E0. bk E0 as [t d0] E1. injection E0 as <-. simpl in EV |- *.
  assert (rename_vtree f svt = Some t) as RN.
  { destruct (covers_or f svt) as [C|(v & Hv & Fv)].
    - destruct (copy_vtree_spec f (fun _ => None) [] svt C) as (t' & d'' & E2 & RN & _). rewrite E1 in E2. injection E2 as <- _. exact RN.
    - rewrite (copy_vtree_aborts f (fun _ => None) [] svt v Hv Fv) in E1. discriminate. }
  destruct (from_sdd_full sd svt f fl [] t order root st d m RN I) as [K1 K2]; auto.
  - simpl. congruence.
  - intros w Hw. destruct (Forall2_in_r _ _ _ _ (rename_leaves f svt t RN) Hw) as (v & Hv & Ev). eapply NZ; eauto.
  - split; auto. intros H. destruct (K2 H) as (i & d' & m' & A & B & C & D & _). unfold ConvertSddToPsdd. eauto 10.
Qed.
End Final.

(** ** ConvertPsddNodeToSddNode: C34 *)
Section ToSdd.
Context {P : pops} (val : P -> R) {S : Type} (s_true s_false : S) (s_lit : Z -> S) (s_and s_or : S -> S -> S) (mdl : S -> inst -> bool).
(** what libsdd's operations mean *)
Record sdd_ops : Prop := {
  so_true : forall y, mdl s_true y = true;
  so_false : forall y, mdl s_false y = false;
  so_lit : forall l y, l <> 0%Z -> mdl (s_lit l) y = lit_sat l y;
  so_and : forall a b y, mdl (s_and a b) y = mdl a y && mdl b y;
  so_or : forall a b y, mdl (s_or a b) y = mdl a y || mdl b y
}.
Context (OPS : sdd_ops).
Context (vroot : vtree) (h : heap P) (HO : heap_ok vroot h) (root : nat) (L : list nat) (SO : ser_of h root L) (vm : N -> option Z).
Definition ren (y : inst) : inst := fun v => match vm v with Some w => y (Z.to_N w) | None => false end.
Definition mapped (i : nat) : Prop := forall nd l, nth_error h i = Some nd -> n_body nd = BLit l -> exists w, vm (lit_var l) = Some w.
Definition sud_ok (u : @sudata S) (i : nat) : Prop := forall t, Rep val h i t -> exists s, u i = Some s /\ forall y, mdl s y = base t (ren y).
Lemma set_sud_same (u : @sudata S) i x : set_sud u i x i = x.
Proof. unfold set_sud. rewrite Nat.eqb_refl. auto. Qed.
Lemma set_sud_other (u : @sudata S) i x j : j <> i -> set_sud u i x j = u j.
Proof. unfold set_sud. intros H. apply Nat.eqb_neq in H. rewrite H. auto. Qed.
Notation step := (to_sdd_step s_true s_false s_lit s_and s_or h vm).
Context (POS : forall v w, vm v = Some w -> (0 < w)%Z).
Lemma to_sdd_prefix u0 : forall L2 L1, L = L1 ++ L2 -> (forall i, In i L2 -> mapped i) ->
  exists u, foldM step (rev L2) u0 = Ok u /\ (forall i, In i L2 -> sud_ok u i) /\ (forall i, ~ In i L2 -> u i = u0 i).
Proof.
  induction L2 as [|i L2 IH]; intros L1 EL MP.
  - exists u0. simpl. split; auto. split; [intros i []|auto].
  - destruct (IH (L1 ++ [i])) as (u & E & H1 & H2); [rewrite <- app_assoc; exact EL|intros j Hj; apply MP; right; auto|].
    assert (i < length h)%nat as Hi by (eapply ser_lt; eauto; rewrite EL; apply in_app_iff; right; left; auto).
    apply nth_error_Some in Hi. destruct (nth_error h i) as [nd|] eqn:En; [|congruence].
    assert (exists s, step u i = Ok (set_sud u i (Some s)) /\ forall t, Rep val h i t -> forall y, mdl s y = base t (ren y)) as (s & Es & Hs).
    { unfold to_sdd_step. rewrite En. cbn [get bind]. destruct (n_body nd) as [l|v pt pf|es] eqn:Eb.
      - destruct (MP i (or_introl eq_refl) nd l En Eb) as [w Hw]. rewrite Hw. eexists. split; [reflexivity|].
        intros t HR y. inversion HR as [j nd' l' E1 E2|j nd' v pt pf E1 E2|j nd' es tes E1 E2 E3]; subst; rewrite En in E1; injection E1 as <-; try congruence.
        assert (l' = l) by congruence. subst l'. simpl. pose proof (POS _ _ Hw) as PW.
        rewrite (so_lit OPS) by (destruct (lit_sign l); lia). unfold lit_sat, ren, lit_var in *. rewrite Hw. unfold lit_sign. 
        destruct (Z.ltb 0 l).
        + replace (Z.abs_N w) with (Z.to_N w) by lia. replace (0 <? w)%Z with true by (symmetry; lia). auto.
        + replace (Z.abs_N (- w)) with (Z.to_N w) by lia. replace (0 <? - w)%Z with false by (symmetry; lia). auto.
      - exists s_true. split; auto. intros t HR y. inversion HR; subst; try congruence. simpl. apply (so_true OPS).
      - assert (forall es0, incl es0 es -> forall acc, exists r,
          foldM (fun acc e => do a <- get (u (e_prime e)) ;; do b <- get (u (e_sub e)) ;; Ok (s_or acc (s_and a b))) es0 acc = Ok r /\
          forall tes, Forall2 (fun e te => Rep val h (e_prime e) (tp te) /\ Rep val h (e_sub e) (ts te) /\ tw te = val (e_param e)) es0 tes ->
            forall y, mdl r y = mdl acc y || existsb (fun e => base (fst (fst e)) (ren y) && base (snd (fst e)) (ren y)) tes) as K.
        { induction es0 as [|e es0 IHe]; intros IN acc.
          - exists acc. split; auto. intros tes F y. inversion F; subst. simpl. rewrite orb_false_r. auto.
          - destruct (ser_elem h root L SO L1 i L2 nd es e EL En Eb (IN e (or_introl eq_refl))) as [C1 C2].
            assert (forall c, In c L2 -> exists tc, Rep val h c tc) as RX.
            { intros c Hc. eapply Rep_exists; eauto. eapply ser_lt; eauto. rewrite EL. apply in_app_iff. right. right. auto. }
            destruct (RX _ C1) as [t1 R1]. destruct (RX _ C2) as [t2 R2].
            destruct (H1 _ C1 _ R1) as (a & Ea & Ha). destruct (H1 _ C2 _ R2) as (b & Eb2 & Hb).
            cbn [foldM]. rewrite Ea, Eb2. cbn [get bind].
            destruct (IHe (fun x Hx => IN x (or_intror Hx)) (s_or acc (s_and a b))) as (r & Er & Hr). exists r. split; auto.
            intros tes F y. inversion F as [|? te ? tes' (Q1 & Q2 & Q3) F']; subst. simpl. rewrite (Hr _ F'), (so_or OPS), (so_and OPS), Ha, Hb.
            rewrite (Rep_fun val h _ _ _ R1 Q1), (Rep_fun val h _ _ _ R2 Q2). unfold tp, ts. rewrite orb_assoc. auto. }
        destruct (K es (incl_refl _) s_false) as (r & Er & Hr). rewrite Er. cbn [bind]. exists r. split; auto.
        intros t HR y. inversion HR as [j nd' l' E1 E2|j nd' v pt pf E1 E2|j nd' es' tes E1 E2 E3]; subst; rewrite En in E1; injection E1 as <-; try congruence.
        assert (es' = es) by congruence. subst es'. rewrite (Hr _ E3), (so_false OPS). reflexivity. }
    exists (set_sud u i (Some s)). split.
    + simpl. rewrite foldM_app, E. cbn [bind foldM]. rewrite Es. reflexivity.
    + split.
      * intros j Hj. destruct (Nat.eq_dec j i) as [->|NE].
        -- intros t HR. exists s. rewrite set_sud_same. auto.
        -- destruct Hj as [Hj|Hj]; [congruence|]. intros t HR. rewrite set_sud_other by auto. apply H1; auto.
      * intros j Hj. rewrite set_sud_other; [|intros ->; apply Hj; left; auto]. apply H2. intros Z. apply Hj. right; auto.
Qed.
Lemma clear_sud (l : list nat) : forall (u : @sudata S) i, fold_left (fun u i => set_sud u i None) l u i = if memb i l then None else u i.
Proof.
  induction l as [|a l IH]; intros u i; simpl; auto. rewrite IH. unfold set_sud. destruct (Nat.eqb i a); simpl; auto. destruct (memb i l); auto.
Qed.
Lemma mapped_dec i : mapped i \/ exists nd l, nth_error h i = Some nd /\ n_body nd = BLit l /\ vm (lit_var l) = None.
Proof.
  unfold mapped. destruct (nth_error h i) as [nd|] eqn:E; [|left; intros; congruence].
  destruct (n_body nd) as [l|v a b|es] eqn:Eb.
  - destruct (vm (lit_var l)) as [w|] eqn:Ev; [left|right; eauto]. intros nd' l' E1 E2. injection E1 as <-. rewrite Eb in E2. injection E2 as <-. eauto.
  - left. intros nd' l' E1 E2. injection E1 as <-. congruence.
  - left. intros nd' l' E1 E2. injection E1 as <-. congruence.
Qed.
Theorem to_sdd_spec u0 t : Rep val h root t ->
  ((forall i, reach h root i -> mapped i) -> exists s u', ConvertPsddNodeToSddNode s_true s_false s_lit s_and s_or h L vm u0 = Ok (s, u') /\
     (forall y, mdl s y = base t (ren y)) /\ (forall i, u' i = if memb i L then None else u0 i)) /\
  (forall i, reach h root i -> ~ mapped i -> ConvertPsddNodeToSddNode s_true s_false s_lit s_and s_or h L vm u0 = Abort).
Proof.
  intros HR. split.
  - intros MP. destruct (to_sdd_prefix u0 L [] eq_refl) as (u & E & H1 & H2). { intros i Hi. apply MP, (so_in _ _ _ SO). auto. }
    destruct (so_head _ _ _ SO) as [L' EL]. assert (In root L) as Rin by (rewrite EL; left; auto).
    destruct (H1 root Rin t HR) as (s & Es & Hs). unfold ConvertPsddNodeToSddNode. rewrite E. cbn [bind].
    replace (hd_error L) with (Some root) by (rewrite EL; auto). cbn [get bind]. rewrite Es. cbn [get bind].
    eexists _, _. split; [reflexivity|]. split; auto. intros i. rewrite clear_sud. destruct (memb i L) eqn:Em; auto. apply H2. apply memb_false. auto.
  - intros i Hi Ni. apply (so_in _ _ _ SO) in Hi.
    assert (exists L1 j L2, L = L1 ++ j :: L2 /\ ~ mapped j /\ forall k, In k L2 -> mapped k) as (L1 & j & L2 & EL & Nj & ML2).
    { eapply last_bad; [|exact Hi|exact Ni]. intros a. destruct (mapped_dec a) as [A|(nd & l & A & B & C)]; auto. right. intros M.
      destruct (M _ _ A B) as [w Hw]. congruence. }
    destruct (to_sdd_prefix u0 L2 (L1 ++ [j])) as (u & E & _ & _); [rewrite <- app_assoc; exact EL|auto|].
    unfold ConvertPsddNodeToSddNode. rewrite EL at 1. rewrite rev_app_distr. simpl. rewrite <- app_assoc, foldM_app, E. cbn [bind].
    destruct (mapped_dec j) as [A|(nd & l & A & B & C)]; [contradiction|].
    simpl. unfold to_sdd_step at 1. rewrite A. cbn [get bind]. rewrite B, C. reflexivity.
Qed.
End ToSdd.
