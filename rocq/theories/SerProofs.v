(** Serialization, coverage and garbage collection. *)
From Coq Require Import Sorted.
From Verif Require Import Base Param Vtree VtreeProofs Heap Manager HeapProofs.

Section Ser.
Context {P : pops}.
Notation heap := (heap P). Notation mgr := (mgr P). Notation node := (node P).

(** Specification: reachability through elements. *)
Inductive reach (h : heap) : nat -> nat -> Prop :=
| reach_refl i : reach h i i
| reach_step i nd c j : nth_error h i = Some nd -> In c (children nd) -> reach h c j -> reach h i j.
Lemma reach_snoc (h : heap) i j nd c : reach h i j -> nth_error h j = Some nd -> In c (children nd) -> reach h i c.
Proof. induction 1; intros; econstructor; eauto. constructor. Qed.
Lemma reach_trans (h : heap) i j k : reach h i j -> reach h j k -> reach h i k.
Proof. induction 1; intros; auto. econstructor; eauto. Qed.

Definition closed (h : heap) : Prop := forall i nd c, nth_error h i = Some nd -> In c (children nd) -> c < length h.
Lemma in_children (nd : node) c : In c (children nd) <->
  exists es e, n_body nd = BDec es /\ In e es /\ (c = e_prime e \/ c = e_sub e).
Proof.
  unfold children. split.
  - destruct (n_body nd) as [| |es] eqn:E; try (intros []). intros H. exists es.
    apply in_app_iff in H as [H|H]; apply in_map_iff in H as (e & <- & He); eauto.
  - intros (es & e & -> & He & [->| ->]); apply in_app_iff; [left|right]; apply in_map; auto.
Qed.
Lemma heap_ok_child root (h : heap) i nd c : heap_ok root h -> nth_error h i = Some nd -> In c (children nd) ->
  c < i /\ exists b, vt_of h c = Some (b :: n_vt nd).
Proof.
  intros H E Hc. specialize (H _ _ E). apply in_children in Hc as (es & e & Eb & He & Hc).
  unfold node_ok in H. rewrite Eb in H. destruct H as (_ & _ & F). rewrite Forall_forall in F.
  destruct (F e He) as (A & B & C & D). destruct Hc as [->| ->]; eauto.
Qed.
Lemma heap_ok_closed root (h : heap) : heap_ok root h -> closed h.
Proof.
  intros H i nd c E Hc. destruct (heap_ok_child _ _ _ _ _ H E Hc) as [L _].
  assert (i < length h) by (apply nth_error_Some; congruence). lia.
Qed.
Lemma reach_le root (h : heap) i j : heap_ok root h -> reach h i j -> j <= i.
Proof.
  intros H. induction 1 as [|i nd c j E Hc _ IH]; auto. destruct (heap_ok_child _ _ _ _ _ H E Hc) as [L _]. lia.
Qed.

(** ** The worklist *)
Lemma push_new_spec cs : forall r, exists new, fold_left push_new cs r = r ++ new /\
  (NoDup r -> NoDup (r ++ new)) /\ (forall x, In x (r ++ new) <-> In x r \/ In x cs) /\
  (forall x, In x new -> In x cs).
Proof.
  induction cs as [|c cs IH]; intros r; simpl.
  - exists []. rewrite app_nil_r. repeat split; auto; tauto.
  - unfold push_new at 2. destruct (memb c r) eqn:E.
    + apply memb_In in E. destruct (IH r) as (new & H1 & H2 & H3 & H4). exists new. repeat split; auto.
      * intros Hx. apply H3 in Hx. tauto.
      * intros [Hx|[<-|Hx]]; apply H3; auto.
    + apply memb_false in E. destruct (IH (r ++ [c])) as (new & H1 & H2 & H3 & H4). exists (c :: new).
      rewrite <- app_assoc in *. simpl in *. repeat split; auto.
      * intros ND. apply H2. apply NoDup_app_intro; auto. { constructor; [intros []|constructor]. }
        intros x Hx [<-|[]]. auto.
      * intros Hx. apply H3 in Hx. rewrite in_app_iff in Hx. simpl in Hx. tauto.
      * intros Hx. apply H3. rewrite in_app_iff. simpl. tauto.
      * intros x [<-|Hx]; auto.
Qed.
Lemma NoDup_range_length (r : list nat) n : NoDup r -> (forall x, In x r -> x < n) -> length r <= n.
Proof.
  intros ND H. rewrite <- (seq_length n 0). apply NoDup_incl_length; auto.
  intros x Hx. apply in_seq. specialize (H x Hx). lia.
Qed.

Lemma ser_loop_spec (h : heap) (Q : nat -> Prop) : closed h ->
  (forall i nd c, Q i -> nth_error h i = Some nd -> In c (children nd) -> Q c) ->
  forall fuel k r, length h + 1 <= fuel + k -> k <= length r -> NoDup r -> (forall x, In x r -> x < length h) ->
  (forall x, In x r -> Q x) ->
  (forall j i nd c, j < k -> nth_error r j = Some i -> nth_error h i = Some nd -> In c (children nd) -> In c r) ->
  exists L, ser_loop fuel h k r = Ok L /\ NoDup L /\ (forall x, In x L -> x < length h) /\
    (exists l, L = r ++ l) /\ (forall x, In x L -> Q x) /\
    (forall i nd c, In i L -> nth_error h i = Some nd -> In c (children nd) -> In c L).
Proof.
  intros CL HQ. induction fuel as [|f IH]; intros k r HF HK ND RG HQr HC.
  - pose proof (NoDup_range_length r _ ND RG).
    simpl. destruct (nth_error r k) eqn:E.
    + assert (k < length r) by (apply nth_error_Some; congruence). lia.
    + exists r. repeat split; auto. { exists []. rewrite app_nil_r; auto. }
      intros i nd c Hi. apply In_nth_error in Hi as [j Hj]. eapply HC; eauto. apply nth_error_None in E.
      assert (j < length r) by (apply nth_error_Some; congruence). lia.
  - cbn [ser_loop]. destruct (nth_error r k) as [i|] eqn:E.
    + assert (i < length h) as Hi by (apply RG; eapply nth_error_In; eauto).
      apply nth_error_Some in Hi as Hi'. destruct (nth_error h i) as [nd|] eqn:En; [clear Hi'|congruence]. cbn [get bind].
      destruct (push_new_spec (children nd) r) as (new & -> & P1 & P2 & P3).
      destruct (IH (S k) (r ++ new)) as (L & L1 & L2 & L3 & (l & L4) & L5 & L6).
      * lia.
      * rewrite app_length. assert (k < length r) by (apply nth_error_Some; congruence). lia.
      * auto.
      * intros x Hx. apply P2 in Hx as [Hx|Hx]; eauto.
      * intros x Hx. apply P2 in Hx as [Hx|Hx]; auto. eapply HQ; eauto. apply HQr. eapply nth_error_In; eauto.
      * intros j i' nd' c Hj Ej En' Hc. apply P2.
        assert (k < length r) by (apply nth_error_Some; congruence).
        rewrite nth_error_app1 in Ej by lia.
        destruct (Nat.eq_dec j k) as [->|NE].
        -- rewrite E in Ej. injection Ej as <-. rewrite En in En'. injection En' as <-. auto.
        -- left. eapply (HC j); eauto. lia.
      * exists L. repeat split; auto. exists (new ++ l). rewrite L4, app_assoc. reflexivity.
    + exists r. repeat split; auto. { exists []. rewrite app_nil_r; auto. }
      intros i nd c Hi. apply In_nth_error in Hi as [j Hj]. eapply HC; eauto. apply nth_error_None in E.
      assert (j < length r) by (apply nth_error_Some; congruence). lia.
Qed.

Theorem serialize_spec (h : heap) roots : closed h -> (forall r, In r roots -> r < length h) ->
  exists L, SerializePsddNodes h roots = Ok L /\ NoDup L /\
    (forall j, In j L <-> exists r, In r roots /\ reach h r j) /\
    (exists l, L = fold_left push_new roots [] ++ l).
Proof.
  intros CL HR. unfold SerializePsddNodes.
  destruct (push_new_spec roots []) as (new & E & P1 & P2 & P3). rewrite E. simpl in *.
  destruct (ser_loop_spec h (fun j => exists r, In r roots /\ reach h r j) CL) with (fuel := S (length h)) (k := 0) (r := new)
    as (L & L1 & L2 & L3 & (l & L4) & L5 & L6).
  - intros i nd c (r & H1 & H2) En Hc. exists r. split; auto. eapply reach_snoc; eauto.
  - lia.
  - lia.
  - apply P1. constructor.
  - intros x Hx. apply HR. auto.
  - intros x Hx. exists x. split; auto. constructor.
  - intros; lia.
  - exists L. split; auto. split; auto. split; [|eauto]. intros j. split; auto.
    intros (r & H1 & H2). assert (In r L) as H3 by (rewrite L4; apply in_app_iff; left; apply P2; auto).
    clear H1 L5. induction H2 as [|i nd c j En Hc _ IH]; auto. apply IH. eapply L6; eauto.
Qed.

(** ** Parent-first order when all roots are at the same depth *)
Definition depth (h : heap) (i : nat) : nat := match vt_of h i with Some p => length p | None => 0 end.
Definition graded (h : heap) : Prop := forall i nd c, nth_error h i = Some nd -> In c (children nd) -> depth h c = S (depth h i).
Lemma heap_ok_graded root (h : heap) : heap_ok root h -> graded h.
Proof.
  intros H i nd c E Hc. destruct (heap_ok_child _ _ _ _ _ H E Hc) as (_ & b & V).
  unfold depth. rewrite V. unfold vt_of. rewrite E. reflexivity.
Qed.
Definition dle h (a b : nat) := depth h a <= depth h b.
Lemma sorted_app {A} (R : A -> A -> Prop) l1 l2 : StronglySorted R l1 -> StronglySorted R l2 ->
  (forall a b, In a l1 -> In b l2 -> R a b) -> StronglySorted R (l1 ++ l2).
Proof.
  induction 1 as [|a l1 H IH F]; simpl; intros H2 HR; auto. constructor.
  - apply IH; auto.
  - apply Forall_app. split; auto. apply Forall_forall. intros; apply HR; auto.
Qed.
Lemma sorted_split {A} (R : A -> A -> Prop) l1 a l2 : StronglySorted R (l1 ++ a :: l2) ->
  (forall b, In b l1 -> R b a) /\ (forall b, In b l2 -> R a b).
Proof.
  induction l1 as [|x l1 IH]; simpl; intros H; inversion H as [|? ? H1 H2]; subst.
  - split; [intros b []|]. apply Forall_forall. auto.
  - destruct (IH H1) as [I1 I2]. split; auto. intros b [<-|Hb]; auto.
    rewrite Forall_forall in H2. apply H2, in_app_iff. right; left; auto.
Qed.
Lemma sorted_same (h : heap) l d : (forall x, In x l -> depth h x = d) -> StronglySorted (dle h) l.
Proof.
  induction l as [|x l IH]; intros H; constructor.
  - apply IH. intros; apply H; right; auto.
  - apply Forall_forall. intros y Hy. unfold dle. rewrite (H x), (H y); auto; [right|left]; auto.
Qed.
Lemma ser_loop_sorted (h : heap) : graded h -> forall fuel k r L, ser_loop fuel h k r = Ok L ->
  StronglySorted (dle h) r ->
  (forall i, nth_error r k = Some i -> forall x, In x r -> depth h x <= S (depth h i)) ->
  StronglySorted (dle h) L.
Proof.
  intros G. induction fuel as [|f IH]; intros k r L E S B; cbn [ser_loop] in E.
  - destruct (nth_error r k); [discriminate|]. injection E as <-. auto.
  - destruct (nth_error r k) as [i|] eqn:Ek; [|injection E as <-; auto].
    bk E as nd En. destruct (nth_error h i) as [nd'|] eqn:En'; [|discriminate]. injection En as ->.
    destruct (push_new_spec (children nd) r) as (new & Enew & _ & _ & P3). rewrite Enew in E.
    assert (forall x, In x new -> depth h x = Datatypes.S (depth h i)) as DN by (intros x Hx; eapply G; eauto).
    assert (StronglySorted (dle h) (r ++ new)) as S2.
    { apply sorted_app; auto.
      - eapply sorted_same; eauto.
      - intros a b Ha Hb. unfold dle. rewrite (DN b Hb). eapply B; eauto. }
    apply IH in E; auto. intros i' Ei' x Hx.
    assert (depth h x <= Datatypes.S (depth h i)) as X1.
    { apply in_app_iff in Hx as [Hx|Hx]; [eapply B; eauto | rewrite (DN x Hx); lia]. }
    assert (depth h i <= depth h i') as X2; [|lia].
    apply nth_error_split in Ek as (r1 & r2 & Er & Lr). subst r.
    rewrite <- app_assoc in *. cbn [app] in *. apply sorted_split in S2 as [_ S2]. apply S2.
    replace (Datatypes.S k) with (length r1 + 1) in Ei' by lia.
    rewrite nth_error_app2 in Ei' by lia. replace (length r1 + 1 - length r1) with 1 in Ei' by lia. simpl in Ei'.
    destruct (r2 ++ new) as [|y l]; [discriminate|]. injection Ei' as <-. left; auto.
Qed.
Lemma push_new_roots_in roots x : In x (fold_left push_new roots []) <-> In x roots.
Proof. destruct (push_new_spec roots []) as (new & E & _ & P2 & _). rewrite E. rewrite P2. simpl. tauto. Qed.

Lemma serialize_sorted (h : heap) roots L d : closed h -> graded h -> (forall r, In r roots -> r < length h) ->
  (forall r, In r roots -> depth h r = d) -> SerializePsddNodes h roots = Ok L -> StronglySorted (dle h) L.
Proof.
  intros CL G HR HD E. unfold SerializePsddNodes in E. eapply ser_loop_sorted; eauto.
  - apply (sorted_same _ _ d). intros x Hx. apply HD. apply push_new_roots_in; auto.
  - intros i Ei x Hx. apply (proj1 (push_new_roots_in roots x)) in Hx. apply nth_error_In in Ei. apply (proj1 (push_new_roots_in roots i)) in Ei.
    rewrite (HD x Hx), (HD i Ei). auto.
Qed.

(** Children come later. *)
Definition parent_first (h : heap) (L : list nat) : Prop :=
  forall L1 i L2, L = L1 ++ i :: L2 -> forall nd c, nth_error h i = Some nd -> In c (children nd) -> In c L2.
Theorem serialize_parent_first (h : heap) roots d L : closed h -> graded h -> (forall r, In r roots -> r < length h) ->
  (forall r, In r roots -> depth h r = d) -> SerializePsddNodes h roots = Ok L -> parent_first h L.
Proof.
  intros CL G HR HD E L1 i L2 EL nd c En Hc.
  pose proof (serialize_sorted _ _ _ _ CL G HR HD E) as S.
  destruct (serialize_spec h roots CL HR) as (L' & E' & ND & IN & _). rewrite E in E'. injection E' as <-.
  assert (In c L) as HcL.
  { apply IN. assert (In i L) as Hi by (rewrite EL; apply in_app_iff; right; left; auto).
    apply IN in Hi as (r & Hr & Hri). exists r. split; auto. eapply reach_snoc; eauto. }
  pose proof (G _ _ _ En Hc) as D. rewrite EL in HcL, S. apply sorted_split in S as [S1 _].
  apply in_app_iff in HcL as [HcL|[->|HcL]]; auto.
  - apply S1 in HcL. unfold dle in HcL. lia.
  - lia.
Qed.
Lemma serialize_single_head (h : heap) root L : closed h -> root < length h -> SerializePsddNodes h [root] = Ok L ->
  exists l, L = root :: l.
Proof.
  intros CL HR E. destruct (serialize_spec h [root] CL) as (L' & E' & _ & _ & l & El).
  - intros r [<-|[]]; auto.
  - rewrite E in E'. injection E' as <-. simpl in El. eauto.
Qed.

(** The facts about a single-root serialization in one package. *)
Record ser_of (h : heap) (root : nat) (L : list nat) : Prop := {
  so_eq : SerializePsddNodes h [root] = Ok L;
  so_nodup : NoDup L;
  so_in : forall j, In j L <-> reach h root j;
  so_head : exists l, L = root :: l;
  so_topo : parent_first h L;
}.
Theorem serialize_root (h : heap) vt root : heap_ok vt h -> root < length h -> exists L, ser_of h root L.
Proof.
  intros H HR. pose proof (heap_ok_closed _ _ H) as CL. pose proof (heap_ok_graded _ _ H) as G.
  assert (forall r, In r [root] -> r < length h) as HR' by (intros r [<-|[]]; auto).
  destruct (serialize_spec h [root] CL HR') as (L & E & ND & IN & l & El). exists L. split; auto.
  - intros j. rewrite IN. split.
    + intros (r & [<-|[]] & Hr). auto.
    + intros Hr. exists root. split; auto. left; auto.
  - simpl in El. eauto.
  - apply (serialize_parent_first h [root] (depth h root) L); auto. intros r [<-|[]]; auto.
Qed.

(** ** Coverage is serialization *)
Lemma cover_push_spec cs : forall q cov, exists new,
  fold_left cover_push cs (q, cov) = (q ++ new, cov ++ new) /\ fold_left push_new cs cov = cov ++ new.
Proof.
  induction cs as [|c cs IH]; intros q cov; simpl.
  - exists []. rewrite !app_nil_r. auto.
  - unfold push_new at 2. destruct (memb c cov) eqn:E.
    + apply IH.
    + destruct (IH (q ++ [c]) (cov ++ [c])) as (new & H1 & H2). exists (c :: new).
      rewrite H1, H2, <- !app_assoc. auto.
Qed.
Lemma cover_loop_ser (h : heap) : forall fuel k r, cover_loop fuel h (skipn k r) r = ser_loop fuel h k r.
Proof.
  induction fuel as [|f IH]; intros k r; cbn [cover_loop ser_loop].
  - destruct (nth_error r k) as [i|] eqn:E.
    + apply nth_error_split in E as (r1 & r2 & -> & <-). rewrite skipn_app, skipn_all, Nat.sub_diag. reflexivity.
    + apply nth_error_None in E. rewrite skipn_all2 by auto. reflexivity.
  - destruct (nth_error r k) as [i|] eqn:E.
    + pose proof E as E0. apply nth_error_split in E as (r1 & r2 & Er & Lr). 
      assert (skipn k r = i :: r2) as ->. { rewrite Er, skipn_app, <- Lr, skipn_all, Nat.sub_diag. reflexivity. }
      destruct (nth_error h i) as [nd|]; [|reflexivity]. cbn [get bind].
      destruct (cover_push_spec (children nd) r2 r) as (new & -> & ->).
      rewrite <- IH. f_equal. 
      assert (S k <= length r) by (rewrite Er, app_length; simpl; lia).
      rewrite skipn_app. replace (S k - length r) with 0 by lia. f_equal.
      rewrite Er. replace (S k) with (length r1 + 1) by lia. rewrite skipn_app, skipn_all2 by lia.
      replace (length r1 + 1 - length r1) with 1 by lia. reflexivity.
    + apply nth_error_None in E. rewrite skipn_all2 by auto. reflexivity.
Qed.
Theorem covered_is_serialized (h : heap) roots : GetCoveredPsddNodes h roots = SerializePsddNodes h roots.
Proof.
  unfold GetCoveredPsddNodes, SerializePsddNodes.
  destruct (cover_push_spec roots [] []) as (new & -> & ->). apply (cover_loop_ser h _ 0).
Qed.

(** ** Garbage collection *)
Theorem gc_spec (m : mgr) used : Wf m -> (forall u, In u used -> u < length (m_heap m)) ->
  exists m', DeleteUnusedPsddNodes m used = Ok m' /\ m_vt m' = m_vt m /\ m_heap m' = m_heap m /\
    (forall i, In i (m_live m') <-> In i (m_live m) /\ exists u, In u used /\ reach (m_heap m) u i).
Proof.
  intros W HU. unfold DeleteUnusedPsddNodes. rewrite covered_is_serialized.
  destruct (serialize_spec (m_heap m) used) as (L & E & _ & IN & _); auto.
  { eapply heap_ok_closed. apply (wf_heap _ W). }
  rewrite E. simpl. eexists. split; [reflexivity|]. simpl. split; auto. split; auto. intros i. split.
  - intros H. apply filter_In in H as [H1 H]. apply memb_In, IN in H. auto.
  - intros [H1 H2]. apply filter_In. split; auto. apply memb_In, IN. auto.
Qed.
Lemma gc_wf (m : mgr) used m' : Wf m -> DeleteUnusedPsddNodes m used = Ok m' -> Wf m'.
Proof.
  intros W E. unfold DeleteUnusedPsddNodes in E. bk E as cov Ec. injection E as <-. apply wf_filter; auto.
Qed.
Lemma gc_flags_wf (m : mgr) fl : Wf m -> Wf (DeletePsddNodesWithoutFlagIndexes m fl).
Proof. apply wf_filter. Qed.

(** ** Size *)
Definition node_size (nd : node) : nat :=
  match n_body nd with BDec es => length es - 1 | BTop _ _ _ => 1 | BLit _ => 0 end.
Definition size_at (h : heap) (i : nat) : nat := match nth_error h i with Some nd => node_size nd | None => 0 end.
Lemma size_fold root (h : heap) : heap_ok root h -> forall L acc, (forall i, In i L -> i < length h) ->
  foldM (size_step h) L acc = Ok (acc + list_sum (map (size_at h) L)).
Proof.
  intros H. induction L as [|i L IH]; intros acc HL; cbn [foldM map list_sum fold_right].
  - rewrite Nat.add_0_r. reflexivity.
  - assert (i < length h) as Hi by (apply HL; left; auto). apply nth_error_Some in Hi.
    unfold size_step at 1. unfold size_at at 1. destruct (nth_error h i) as [nd|] eqn:E; [|congruence]. cbn [get bind].
    specialize (H _ _ E). unfold node_ok, node_size in *.
    assert (forall i, In i L -> i < length h) as HL' by (intros; apply HL; right; auto).
    change (fold_right Nat.add 0 (map (size_at h) L)) with (list_sum (map (size_at h) L)).
    destruct (n_body nd) as [| |es].
    + cbn [bind]. rewrite IH by auto. f_equal. 
    + cbn [bind]. rewrite IH by auto. f_equal. lia.
    + destruct H as [NE _]. destruct es as [|e es]; [congruence|]. cbn [bind]. rewrite IH by auto. f_equal. lia.
Qed.
Theorem psdd_size_spec root (h : heap) i : heap_ok root h -> i < length h ->
  exists L, ser_of h i L /\ GetPsddSize h i = Ok (list_sum (map (size_at h) L)).
Proof.
  intros H Hi. destruct (serialize_root h root i H Hi) as (L & SL). exists L. split; auto.
  unfold GetPsddSize. rewrite (so_eq _ _ _ SL). cbn [bind]. rewrite (size_fold root) by
    (auto; intros j Hj; apply (so_in _ _ _ SL) in Hj; apply (reach_le _ _ _ _ H) in Hj; lia). reflexivity.
Qed.
End Ser.
