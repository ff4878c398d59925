(** The heap invariant and its preservation by every node-creating operation (structural part:
    needs nothing of the parameters except that they are equal to / not less than themselves). *)
From Verif Require Import Base Param Vtree VtreeProofs Heap Manager.

(** ** Positions identify vtree nodes *)
Lemma pos_down_lt rp : forall t s, subtree t (rev rp) = Some s -> pos_down t rp < vsize t.
Proof.
  induction rp as [|b rp IH]; intros t s H.
  - destruct t; simpl; lia.
  - simpl in H. rewrite subtree_app in H. simpl in H. destruct t as [v|l r]; [discriminate|].
    destruct b; simpl in H; apply IH in H; simpl; lia.
Qed.
Lemma pos_down_inj rp : forall rq t s s', subtree t (rev rp) = Some s -> subtree t (rev rq) = Some s' ->
  pos_down t rp = pos_down t rq -> rp = rq.
Proof.
  induction rp as [|b rp IH]; intros rq t s s' H1 H2 E.
  - destruct rq as [|c rq]; auto. simpl in H2. rewrite subtree_app in H2. simpl in H2.
    destruct t as [v|l r]; [discriminate|]. destruct c; simpl in H2; apply pos_down_lt in H2; simpl in E; lia.
  - simpl in H1. rewrite subtree_app in H1. simpl in H1. destruct t as [v|l r]; [discriminate|].
    destruct rq as [|c rq].
    + destruct b; simpl in H1; apply pos_down_lt in H1; simpl in E; lia.
    + simpl in H2. rewrite subtree_app in H2. simpl in H2.
      pose proof H1 as H1'. pose proof H2 as H2'.
      destruct b, c; simpl in *; apply pos_down_lt in H1'; apply pos_down_lt in H2'; try lia.
      * f_equal. eapply (IH rq r); eauto. lia.
      * f_equal. eapply (IH rq l); eauto.
Qed.
Lemma vpos_inj root p q s s' : subtree root p = Some s -> subtree root q = Some s' ->
  vpos root p = vpos root q -> p = q.
Proof.
  unfold vpos. intros H1 H2 E. rewrite <- (rev_involutive p), <- (rev_involutive q). f_equal.
  eapply (pos_down_inj (rev p) (rev q) root); eauto; rewrite rev_involutive; eauto.
Qed.
Lemma vpos_lt root p s : subtree root p = Some s -> vpos root p < cache_size root.
Proof.
  intros H. unfold vpos, cache_size. destruct (vsize_leaves root) as [<- _].
  eapply pos_down_lt. rewrite rev_involutive. eauto.
Qed.

(** ** Least common ancestors *)
Lemma common_prefix_app a p q : common_prefix (a ++ p) (a ++ q) = a ++ common_prefix p q.
Proof. induction a as [|x a IH]; simpl; auto. rewrite eqb_reflx, IH. reflexivity. Qed.
Lemma vlca_split u w p : vlca (u ++ false :: p) (w ++ true :: p) = p.
Proof.
  unfold vlca. rewrite !rev_app_distr. simpl. rewrite <- !app_assoc, common_prefix_app. simpl.
  rewrite app_nil_r. apply rev_involutive.
Qed.

(** ** Distinct leaves: the path to a variable *)
Lemma leaf_path_from_spec t : forall p v,
  match leaf_path_from p t v with
  | Some q => In (q, Leaf v) (nodes p t)
  | None => ~ In v (leaves t)
  end.
Proof.
  induction t as [w|l IHl r IHr]; intros p v; simpl.
  - destruct (N.eqb v w) eqn:E.
    + apply N.eqb_eq in E. subst. auto.
    + apply N.eqb_neq in E. intros [->|[]]. congruence.
  - specialize (IHl (false :: p) v). specialize (IHr (true :: p) v).
    destruct (leaf_path_from (false :: p) l v).
    + right. apply in_app_iff; auto.
    + destruct (leaf_path_from (true :: p) r v).
      * right. apply in_app_iff; auto.
      * rewrite in_app_iff. tauto.
Qed.
Lemma leaf_path_spec root v :
  match leaf_path root v with
  | Some q => subtree root q = Some (Leaf v)
  | None => ~ In v (leaves root)
  end.
Proof.
  unfold leaf_path. pose proof (leaf_path_from_spec root [] v) as H.
  destruct (leaf_path_from [] root v); auto. apply nodes_root; auto.
Qed.
Lemma subtree_leaves root p s v : subtree root p = Some s -> In v (leaves s) -> In v (leaves root).
Proof. intros H. apply nodes_root in H. eapply nodes_leaves; eauto. Qed.
Lemma leaf_path_unique_from t : forall p q v, NoDup (leaves t) -> In (q, Leaf v) (nodes p t) -> leaf_path_from p t v = Some q.
Proof.
  induction t as [w|l IHl r IHr]; intros p q v ND H; simpl in *.
  - destruct H as [E|[]]. injection E as <- <-. rewrite N.eqb_refl. reflexivity.
  - destruct H as [E|H]; [discriminate|]. apply NoDup_app_inv in ND as (NDl & NDr & DJ).
    apply in_app_iff in H as [H|H].
    + rewrite (IHl _ _ _ NDl H). reflexivity.
    + pose proof (leaf_path_from_spec l (false :: p) v) as S. destruct (leaf_path_from (false :: p) l v) as [q'|].
      * exfalso. apply (DJ v).
        -- eapply nodes_leaves; [exact S|]. simpl; auto.
        -- eapply nodes_leaves; [exact H|]. simpl; auto.
      * apply IHr; auto.
Qed.
Lemma leaf_path_unique root q v : NoDup (leaves root) -> subtree root q = Some (Leaf v) -> leaf_path root v = Some q.
Proof. intros ND H. apply leaf_path_unique_from; auto. apply nodes_root; auto. Qed.

Section Structure.
Context {P : pops}.
Notation heap := (heap P). Notation mgr := (mgr P). Notation node := (node P).

(** ** Well-formed managers *)
(** What a node at index i must look like in a vtree: leaves at leaves; decision nodes non-empty, at internal vtree
    nodes, with primes at the left and subs at the right child, all with smaller index. *)
Definition node_ok (root : vtree) (h : heap) (i : nat) (nd : node) : Prop :=
  match n_body nd with
  | BLit l => subtree root (n_vt nd) = Some (Leaf (lit_var l))
  | BTop v _ _ => subtree root (n_vt nd) = Some (Leaf v)
  | BDec es =>
      es <> [] /\ (exists l r, subtree root (n_vt nd) = Some (VNode l r)) /\
      Forall (fun e => e_prime e < i /\ e_sub e < i /\
                       vt_of h (e_prime e) = Some (false :: n_vt nd) /\
                       vt_of h (e_sub e) = Some (true :: n_vt nd)) es
  end.
Definition heap_ok (root : vtree) (h : heap) : Prop :=
  forall i nd, nth_error h i = Some nd -> node_ok root h i nd.
(** No two entries of the unique table are the same node. *)
Definition canonical (m : mgr) : Prop :=
  forall i j a b, In i (m_live m) -> In j (m_live m) ->
    nth_error (m_heap m) i = Some a -> nth_error (m_heap m) j = Some b ->
    same_slot (m_vt m) a b = true -> equiv a b = true -> i = j.
Record Wf (m : mgr) : Prop := {
  wf_leaves : NoDup (leaves (m_vt m));
  wf_heap : heap_ok (m_vt m) (m_heap m);
  wf_range : forall i, In i (m_live m) -> i < length (m_heap m);
  wf_nodup : NoDup (m_live m);
  wf_canon : canonical m;
}.

(** How a manager may change by creating nodes with flag [fl]: nothing is modified or dropped. *)
Record mext (fl : N) (m m' : mgr) : Prop := {
  me_vt : m_vt m' = m_vt m;
  me_heap : exists l, m_heap m' = m_heap m ++ l /\ Forall (fun nd => n_flag nd = fl) l;
  me_live : incl (m_live m) (m_live m');
  me_new : forall i, In i (m_live m') -> In i (m_live m) \/ length (m_heap m) <= i;
}.
Lemma mext_refl fl m : mext fl m m.
Proof. split; auto using incl_refl. exists []. rewrite app_nil_r; auto. Qed.
Lemma mext_trans fl m1 m2 m3 : mext fl m1 m2 -> mext fl m2 m3 -> mext fl m1 m3.
Proof.
  intros [V1 (l1 & H1 & F1) L1 N1] [V2 (l2 & H2 & F2) L2 N2]. split.
  - congruence.
  - exists (l1 ++ l2). rewrite H2, H1, app_assoc. split; auto. apply Forall_app; auto.
  - eapply incl_tran; eauto.
  - intros i Hi. apply N2 in Hi as [Hi|Hi]; auto. right. rewrite H1, app_length in Hi. lia.
Qed.
Lemma mext_nth fl m m' i nd : mext fl m m' -> nth_error (m_heap m) i = Some nd -> nth_error (m_heap m') i = Some nd.
Proof.
  intros [_ (l & -> & _) _ _] H. rewrite nth_error_app1; auto. apply nth_error_Some. congruence.
Qed.
Lemma mext_len fl m m' : mext fl m m' -> length (m_heap m) <= length (m_heap m').
Proof. intros [_ (l & -> & _) _ _]. rewrite app_length. lia. Qed.
Lemma vt_of_lt (h : heap) i p : vt_of h i = Some p -> i < length h.
Proof. unfold vt_of. destruct (nth_error h i) eqn:E; [|discriminate]. intros _. apply nth_error_Some. congruence. Qed.
Lemma vt_of_app (h l : heap) i p : vt_of h i = Some p -> vt_of (h ++ l) i = Some p.
Proof. intros H. pose proof (vt_of_lt _ _ _ H). unfold vt_of in *. rewrite nth_error_app1; auto. Qed.
Lemma mext_vt fl m m' i p : mext fl m m' -> vt_of (m_heap m) i = Some p -> vt_of (m_heap m') i = Some p.
Proof. intros [_ (l & -> & _) _ _]. apply vt_of_app. Qed.
Lemma vt_of_get (h : heap) i : i < length h -> exists p, vt_of h i = Some p.
Proof. intros H. apply nth_error_Some in H. unfold vt_of. destruct (nth_error h i) as [n|]; [exists (n_vt n); reflexivity|congruence]. Qed.

Lemma node_ok_app root (h l : heap) i nd : node_ok root h i nd -> node_ok root (h ++ l) i nd.
Proof.
  unfold node_ok. destruct (n_body nd); auto. intros (A & B & C). repeat split; auto.
  eapply Forall_impl; [|exact C]. simpl. intros e (E1 & E2 & E3 & E4). repeat split; auto using vt_of_app.
Qed.
Lemma heap_ok_snoc root (h : heap) nd : heap_ok root h -> node_ok root h (length h) nd -> heap_ok root (h ++ [nd]).
Proof.
  intros H N i x E. destruct (Nat.lt_ge_cases i (length h)).
  - rewrite nth_error_app1 in E by auto. apply node_ok_app. auto.
  - rewrite nth_error_app2 in E by auto. destruct (i - length h) as [|k] eqn:K; simpl in E.
    + injection E as <-. replace i with (length h) by lia. apply node_ok_app. auto.
    + destruct k; discriminate.
Qed.
Lemma heap_ok_valid root h i p : heap_ok root h -> vt_of h i = Some p -> exists s, subtree root p = Some s.
Proof.
  unfold vt_of. intros H E. destruct (nth_error h i) as [nd|] eqn:En; [|discriminate].
  injection E as <-. specialize (H _ _ En). unfold node_ok in H. destruct (n_body nd); eauto.
  destruct H as (_ & (l & r & H) & _). eauto.
Qed.

Context (peq_refl : forall a : P, peq a a = true) (plt_irrefl : forall a : P, plt a a = false).

Lemma elems_less_irrefl l : elems_less (P := P) l l = false.
Proof. induction l as [|e l IH]; simpl; auto. rewrite !Nat.eqb_refl, peq_refl. simpl. exact IH. Qed.
Lemma node_less_irrefl nd : node_less (P := P) nd nd = false.
Proof.
  unfold node_less. rewrite N.eqb_refl. simpl. destruct (n_body nd).
  - apply Z.ltb_irrefl.
  - rewrite N.eqb_refl. simpl. apply plt_irrefl.
  - apply elems_less_irrefl.
Qed.
Lemma equiv_refl nd : equiv (P := P) nd nd = true.
Proof. unfold equiv. rewrite node_less_irrefl. reflexivity. Qed.
Lemma equiv_sym a b : equiv (P := P) a b = equiv b a.
Proof. unfold equiv. apply andb_comm. Qed.
Lemma same_slot_refl root nd : same_slot (P := P) root nd nd = true.
Proof. unfold same_slot. rewrite Nat.eqb_refl. destruct (n_body nd); reflexivity. Qed.
Lemma same_slot_sym root a b : same_slot (P := P) root a b = same_slot root b a.
Proof. unfold same_slot. rewrite Nat.eqb_sym. destruct (n_body a), (n_body b); reflexivity. Qed.

(** ** GetUniqueNode *)
Lemma unique_spec m nd i m' : Wf m -> node_ok (m_vt m) (m_heap m) (length (m_heap m)) nd ->
  GetUniqueNode m nd = (i, m') ->
  Wf m' /\ mext (n_flag nd) m m' /\ In i (m_live m') /\
  (exists nd', nth_error (m_heap m') i = Some nd' /\ same_slot (m_vt m) nd nd' = true /\ equiv nd nd' = true) /\
  ((m' = m /\ In i (m_live m)) \/
   (i = length (m_heap m) /\ m_heap m' = m_heap m ++ [nd] /\ m_live m' = m_live m ++ [i])).
Proof.
  intros W N E. unfold GetUniqueNode in E.
  destruct (find _ (m_live m)) as [j|] eqn:F.
  - injection E as <- <-. apply find_some in F as [F1 F2].
    destruct (nth_error (m_heap m) j) as [b|] eqn:Eb; [|discriminate].
    apply andb_true_iff in F2 as [F2 F3].
    split; [exact W|]. split; [apply mext_refl|]. split; [exact F1|]. split; [eauto|]. left; auto.
  - injection E as <- <-. destruct W as [W1 W2 W3 W4 W5].
    assert (forall b j, In j (m_live m) -> nth_error (m_heap m) j = Some b -> same_slot (m_vt m) nd b && equiv nd b = false) as NF.
    { intros b j Hj Eb. pose proof (find_none _ _ F j Hj) as X. simpl in X. rewrite Eb in X. exact X. }
    split; [|split; [|split; [|split]]]; simpl.
    + split; simpl; auto.
      * apply heap_ok_snoc; auto.
      * intros k Hk. rewrite app_length; simpl. apply in_app_iff in Hk as [Hk|[<-|[]]]; [apply W3 in Hk|]; lia.
      * apply NoDup_app_intro; auto.
        -- constructor; [intros []|constructor].
        -- intros k Hk [<-|[]]. apply W3 in Hk. lia.
      * intros k j a b Hk Hj Ea Eb SS EQ. simpl in *.
        apply in_app_iff in Hk, Hj.
        destruct Hk as [Hk|[<-|[]]], Hj as [Hj|[<-|[]]]; auto.
        -- rewrite nth_error_app1 in Ea, Eb by auto. eapply W5; eauto.
        -- exfalso. rewrite nth_error_app1 in Ea by auto. rewrite nth_error_app2, Nat.sub_diag in Eb by lia.
           injection Eb as <-. pose proof (NF a k Hk Ea) as X. rewrite same_slot_sym, equiv_sym, SS, EQ in X. discriminate.
        -- exfalso. rewrite nth_error_app1 in Eb by auto. rewrite nth_error_app2, Nat.sub_diag in Ea by lia.
           injection Ea as <-. pose proof (NF b j Hj Eb) as X. rewrite SS, EQ in X. discriminate.
    + split; simpl; auto.
      * exists [nd]. auto.
      * intros x Hx. apply in_app_iff; auto.
      * intros x Hx. apply in_app_iff in Hx as [Hx|[<-|[]]]; auto.
    + apply in_app_iff. right; left; reflexivity.
    + exists nd. rewrite nth_error_app2, Nat.sub_diag by lia. split; [reflexivity|]. split; [apply same_slot_refl | apply equiv_refl].
    + right. auto.
Qed.

(** Node kinds at the same slot have the same vtree node. *)
Lemma same_slot_vt (m : mgr) (a b : node) : (exists s, subtree (m_vt m) (n_vt a) = Some s) -> (exists s, subtree (m_vt m) (n_vt b) = Some s) ->
  same_slot (m_vt m) a b = true -> n_vt a = n_vt b.
Proof.
  intros [s H1] [s' H2] H. unfold same_slot in H. apply andb_true_iff in H as [H _]. apply Nat.eqb_eq in H.
  eapply vpos_inj; eauto.
Qed.
Lemma equiv_flag (a b : node) : equiv a b = true -> n_flag a = n_flag b.
Proof.
  unfold equiv, node_less. destruct (N.eqb (n_flag a) (n_flag b)) eqn:E.
  - apply N.eqb_eq in E. auto.
  - rewrite (N.eqb_sym (n_flag b)), E. simpl. intros H. apply andb_true_iff in H as [H1 H2].
    apply negb_true_iff, N.ltb_ge in H1, H2. lia.
Qed.
Lemma node_ok_valid root (h : heap) i nd : node_ok root h i nd -> exists s, subtree root (n_vt nd) = Some s.
Proof. unfold node_ok. destruct (n_body nd); eauto. intros (_ & (l & r & H) & _); eauto. Qed.

(** Interning a well-formed node yields a node at its vtree node, with its flag. *)
Lemma unique_wf m nd i m' : Wf m -> node_ok (m_vt m) (m_heap m) (length (m_heap m)) nd ->
  GetUniqueNode m nd = (i, m') ->
  Wf m' /\ mext (n_flag nd) m m' /\ In i (m_live m') /\ vt_of (m_heap m') i = Some (n_vt nd) /\
  exists nd', nth_error (m_heap m') i = Some nd' /\ n_vt nd' = n_vt nd /\ n_flag nd' = n_flag nd /\
     same_slot (m_vt m) nd nd' = true /\ equiv nd nd' = true.
Proof.
  intros W N E. destruct (unique_spec m nd i m' W N E) as (W' & X & L & (nd' & E1 & S & Q) & _).
  repeat split; auto; try apply X; try apply W'.
  - unfold vt_of. rewrite E1. simpl. f_equal. symmetry. apply (same_slot_vt m); auto.
    + eapply node_ok_valid; eauto.
    + rewrite <- (me_vt _ _ _ X). eapply node_ok_valid. apply (wf_heap _ W' _ _ E1).
  - exists nd'. split; auto. split; [|split; [symmetry; apply equiv_flag; auto|auto]].
    symmetry. apply (same_slot_vt m); auto.
    + eapply node_ok_valid; eauto.
    + rewrite <- (me_vt _ _ _ X). eapply node_ok_valid. apply (wf_heap _ W' _ _ E1).
Qed.

(** ** Literal, top and decision nodes *)
Lemma literal_wf m l fl i m' : Wf m -> GetPsddLiteralNode m l fl = Ok (i, m') ->
  Wf m' /\ mext fl m m' /\ In i (m_live m') /\
  exists p, leaf_path (m_vt m) (lit_var l) = Some p /\ vt_of (m_heap m') i = Some p.
Proof.
  intros W E. unfold GetPsddLiteralNode in E. pose proof (leaf_path_spec (m_vt m) (Z.abs_N l)) as S.
  destruct (leaf_path (m_vt m) (Z.abs_N l)) as [p|] eqn:Ep; [|discriminate].
  assert (Eu : GetUniqueNode m (MkN p fl (BLit l)) = (i, m')) by congruence.
  destruct (unique_wf m (MkN p fl (BLit l)) i m' W S Eu) as (A & B & C & D & _). split; [exact A|]. split; [exact B|]. split; [exact C|].
  exists p. auto.
Qed.
Lemma top_wf m v fl pt pf i m' : Wf m -> GetPsddTopNode m v fl pt pf = Ok (i, m') ->
  Wf m' /\ mext fl m m' /\ In i (m_live m') /\
  exists p, leaf_path (m_vt m) v = Some p /\ vt_of (m_heap m') i = Some p.
Proof.
  intros W E. unfold GetPsddTopNode in E. pose proof (leaf_path_spec (m_vt m) v) as S.
  destruct (leaf_path (m_vt m) v) as [p|] eqn:Ep; [|discriminate].
  assert (Eu : GetUniqueNode m (MkN p fl (BTop v pt pf)) = (i, m')) by congruence.
  destruct (unique_wf m (MkN p fl (BTop v pt pf)) i m' W S Eu) as (A & B & C & D & _). split; [exact A|]. split; [exact B|]. split; [exact C|].
  exists p. auto.
Qed.

Lemma insert_elem_perm (e : elem P) l : Permutation (insert_elem e l) (e :: l).
Proof.
  induction l as [|x l IH]; simpl; auto. destruct (Nat.leb _ _); auto.
  rewrite IH. apply perm_swap.
Qed.
Lemma sort_elems_perm (l : list (elem P)) : Permutation (sort_elems l) l.
Proof. unfold sort_elems. induction l as [|e l IH]; simpl; auto. rewrite insert_elem_perm. auto. Qed.
Lemma mk_elems_spec (params : list P) : forall primes i subs es, mk_elems params i primes subs = Ok es ->
  map e_prime es = primes /\ map e_sub es = subs.
Proof.
  induction primes as [|p primes IH]; intros i subs es H; destruct subs as [|s subs]; simpl in H; try discriminate.
  - injection H as <-. auto.
  - bk H as w _. bk H as es' H1. injection H as <-.
    destruct (IH _ _ _ H1) as [<- <-]. auto.
Qed.
Lemma new_dec_wf m vt fl primes subs params i m' : Wf m ->
  (exists l r, subtree (m_vt m) vt = Some (VNode l r)) -> primes <> [] ->
  Forall (fun p => vt_of (m_heap m) p = Some (false :: vt)) primes ->
  Forall (fun p => vt_of (m_heap m) p = Some (true :: vt)) subs ->
  new_dec m vt fl primes subs params = Ok (i, m') ->
  Wf m' /\ mext fl m m' /\ In i (m_live m') /\ vt_of (m_heap m') i = Some vt /\
  exists es nd', mk_elems params 0 primes subs = Ok es /\
    nth_error (m_heap m') i = Some nd' /\ n_vt nd' = vt /\ n_flag nd' = fl /\
    same_slot (m_vt m) (MkN vt fl (BDec (sort_elems es))) nd' = true /\
    equiv (MkN vt fl (BDec (sort_elems es))) nd' = true.
Proof.
  intros W HV NE FP FS E. unfold new_dec in E. bk E as es He.
  assert (Eu : GetUniqueNode m (MkN vt fl (BDec (sort_elems es))) = (i, m')) by congruence. clear E.
  destruct (mk_elems_spec _ _ _ _ _ He) as [Hp Hs].
  assert (node_ok (m_vt m) (m_heap m) (length (m_heap m)) (MkN vt fl (BDec (sort_elems es)))) as NO.
  { simpl. split; [|split; auto].
    - intros Z. apply NE. rewrite <- Hp. pose proof (sort_elems_perm es) as X. rewrite Z in X.
      apply Permutation_nil in X. subst es. reflexivity.
    - apply Forall_forall. intros e He'. apply (Permutation_in _ (sort_elems_perm es)) in He'.
      assert (vt_of (m_heap m) (e_prime e) = Some (false :: vt)) as A.
      { rewrite Forall_forall in FP. apply FP. rewrite <- Hp. apply in_map; auto. }
      assert (vt_of (m_heap m) (e_sub e) = Some (true :: vt)) as B.
      { rewrite Forall_forall in FS. apply FS. rewrite <- Hs. apply in_map; auto. }
      repeat split; auto; eapply vt_of_lt; eauto. }
  destruct (unique_wf m _ i m' W NO Eu) as (A & B & C & D & nd' & E1 & E2 & E3 & E4 & E5).
  repeat split; auto; try apply A; try apply B.
  exists es, nd'. auto 10.
Qed.

(** ** True nodes, normalization, conforming decision nodes *)
Definition tm_wf (tm : tmap) (m : mgr) : Prop :=
  forall k i, nlookup k tm = Some i -> exists p s, subtree (m_vt m) p = Some s /\ vpos (m_vt m) p = k /\ vt_of (m_heap m) i = Some p.
Lemma tm_wf_nil m : tm_wf [] m.
Proof. intros k i H. discriminate. Qed.
Lemma tm_wf_ext fl tm m m' : mext fl m m' -> tm_wf tm m -> tm_wf tm m'.
Proof.
  intros X T k i H. destruct (T k i H) as (p & s & A & B & C). exists p, s. rewrite (me_vt _ _ _ X).
  repeat split; auto. eapply mext_vt; eauto.
Qed.
Lemma tinsert_lookup tm k v k' : nlookup k' (tinsert tm k v) =
  match nlookup k' tm with Some x => Some x | None => if Nat.eqb k' k then Some v else None end.
Proof.
  unfold tinsert. destruct (nlookup k tm) as [x|] eqn:E.
  - destruct (nlookup k' tm) eqn:E'; auto. destruct (Nat.eqb k' k) eqn:Ek; auto. apply Nat.eqb_eq in Ek. congruence.
  - rewrite nlookup_cons. destruct (Nat.eqb k' k) eqn:Ek.
    + apply Nat.eqb_eq in Ek. subst. rewrite E. reflexivity.
    + destruct (nlookup k' tm); reflexivity.
Qed.
Lemma tm_wf_insert tm m p s i : tm_wf tm m -> subtree (m_vt m) p = Some s -> vt_of (m_heap m) i = Some p ->
  tm_wf (tinsert tm (vpos (m_vt m) p) i) m.
Proof.
  intros T H1 H2 k j H. rewrite tinsert_lookup in H. destruct (nlookup k tm) eqn:E.
  - injection H as <-. apply T; auto.
  - destruct (Nat.eqb k (vpos (m_vt m) p)) eqn:Ek; [|discriminate]. apply Nat.eqb_eq in Ek. injection H as <-.
    exists p, s. auto.
Qed.

Definition gt_wf (gt : gt_type) : Prop := forall p fl tm m i tm' m', Wf m -> tm_wf tm m ->
  (exists s, subtree (m_vt m) p = Some s) -> gt p fl tm m = Ok (i, tm', m') ->
  Wf m' /\ mext fl m m' /\ tm_wf tm' m' /\ vt_of (m_heap m') i = Some p.

Lemma norm_loop_wf gt : gt_wf gt -> forall fuel target fl cur tm m i tm' m', Wf m -> tm_wf tm m ->
  norm_loop gt fuel target fl cur tm m = Ok (i, tm', m') ->
  Wf m' /\ mext fl m m' /\ tm_wf tm' m' /\ exists q, target = Some q /\ vt_of (m_heap m') i = Some q.
Proof.
  intros G. induction fuel as [|f IH]; intros target fl cur tm m i tm' m' W T E; cbn [norm_loop] in E; [discriminate|].
  bk E as nd En. destruct (nth_error (m_heap m) cur) as [nd0|] eqn:En0; [|discriminate].
  injection En as ->.
  destruct (opath_eqb (n_vt nd) target) eqn:Et.
  - injection E as <- <- <-. split; [exact W|]. split; [apply mext_refl|]. split; [exact T|].
    destruct target as [q|]; [|discriminate]. simpl in Et. apply path_eqb_true in Et. exists q. split; auto.
    unfold vt_of. rewrite En0. simpl. congruence.
  - assert (exists s, subtree (m_vt m) (n_vt nd) = Some s) as [s Hs] by (eapply node_ok_valid; apply (wf_heap _ W _ _ En0)).
    assert (vt_of (m_heap m) cur = Some (n_vt nd)) as Vc by (unfold vt_of; rewrite En0; reflexivity).
    destruct (n_vt nd) as [|b parent] eqn:Ev; [discriminate|].
    assert (exists l r, subtree (m_vt m) parent = Some (VNode l r)) as HV.
    { simpl in Hs. destruct (subtree (m_vt m) parent) as [[v|l r]|]; try discriminate. eauto. }
    assert (forall b, exists s, subtree (m_vt m) (b :: parent) = Some s) as HS0.
    { intros b'. destruct HV as (l & r & HV). simpl. rewrite HV. simpl. eauto. }
    destruct b.
    + pose proof (HS0 false) as HS. bk E as [[t tm2] m2] Eg.
      destruct (G _ _ _ _ _ _ _ W T HS Eg) as (W2 & X2 & T2 & V2).
      bk E as [next m3] Ed.
      assert (HV2 : exists l r, subtree (m_vt m2) parent = Some (VNode l r)) by (rewrite (me_vt _ _ _ X2); exact HV).
      destruct (new_dec_wf m2 parent fl [t] [cur] [pone] next m3 W2 HV2) as (W3 & X3 & _ & _); auto.
      { discriminate. }
      { constructor; auto. eapply mext_vt; eauto. }
      destruct (IH _ _ _ _ _ _ _ _ W3 (tm_wf_ext _ _ _ _ X3 T2) E) as (W4 & X4 & T4 & V4).
      split; [auto|]. split; [eapply mext_trans; [|eapply mext_trans]; eauto|]. auto.
    + pose proof (HS0 true) as HS. bk E as [[t tm2] m2] Eg.
      destruct (G _ _ _ _ _ _ _ W T HS Eg) as (W2 & X2 & T2 & V2).
      bk E as [next m3] Ed.
      assert (HV2 : exists l r, subtree (m_vt m2) parent = Some (VNode l r)) by (rewrite (me_vt _ _ _ X2); exact HV).
      destruct (new_dec_wf m2 parent fl [cur] [t] [pone] next m3 W2 HV2) as (W3 & X3 & _ & _); auto.
      { discriminate. }
      { constructor; auto. eapply mext_vt; eauto. }
      destruct (IH _ _ _ _ _ _ _ _ W3 (tm_wf_ext _ _ _ _ X3 T2) E) as (W4 & X4 & T4 & V4).
      split; [auto|]. split; [eapply mext_trans; [|eapply mext_trans]; eauto|]. auto.
Qed.
Lemma normalize_with_wf gt : gt_wf gt -> forall target fl cur tm m i tm' m', Wf m -> tm_wf tm m ->
  normalize_with gt target fl cur tm m = Ok (i, tm', m') ->
  Wf m' /\ mext fl m m' /\ tm_wf tm' m' /\ exists q, target = Some q /\ vt_of (m_heap m') i = Some q.
Proof.
  intros G target fl cur tm m i tm' m' W T E. unfold normalize_with in E. bk E as vt _.
  eapply norm_loop_wf; eauto.
Qed.
Lemma conform_loop_wf gt : gt_wf gt -> forall left right fl primes subs tm m ps ss m', Wf m -> tm_wf tm m ->
  conform_loop gt left right fl primes subs tm m = Ok (ps, ss, m') ->
  Wf m' /\ mext fl m m' /\ length ps = length primes /\ length ss = length primes /\
  Forall (fun p => exists q, left = Some q /\ vt_of (m_heap m') p = Some q) ps /\
  Forall (fun s => exists q, right = Some q /\ vt_of (m_heap m') s = Some q) ss.
Proof.
  intros G left right fl. induction primes as [|p primes IH]; intros subs tm m ps ss m' W T E; simpl in E.
  - injection E as <- <- <-. split; [exact W|]. split; [apply mext_refl|]. auto.
  - destruct subs as [|s subs]; [discriminate|].
    bk E as [[p' tm1] m1] E1. bk E as [[s' tm2] m2] E2.
    bk E as [[ps' ss'] m3] E3. injection E as <- <- <-.
    destruct (normalize_with_wf gt G _ _ _ _ _ _ _ _ W T E1) as (W1 & X1 & T1 & q1 & L1 & V1).
    destruct (normalize_with_wf gt G _ _ _ _ _ _ _ _ W1 T1 E2) as (W2 & X2 & T2 & q2 & L2 & V2).
    destruct (IH _ _ _ _ _ _ W2 T2 E3) as (W3 & X3 & N1 & N2 & F1 & F2).
    split; auto. split; [eapply mext_trans; [|eapply mext_trans]; eauto|].
    simpl. split; [lia|]. split; [lia|]. split; constructor; auto.
    + exists q1. split; auto. eapply mext_vt; [exact X3|]. eapply mext_vt; [exact X2|]. exact V1.
    + exists q2. split; auto. eapply mext_vt; eauto.
Qed.
Lemma conformed_with_wf gt : gt_wf gt -> forall m primes subs params fl i m', Wf m ->
  conformed_with gt m primes subs params fl = Ok (i, m') ->
  Wf m' /\ mext fl m m' /\ In i (m_live m') /\
  exists p0 s0 vp vs, hd_error primes = Some p0 /\ hd_error subs = Some s0 /\
    vt_of (m_heap m) p0 = Some vp /\ vt_of (m_heap m) s0 = Some vs /\ vt_of (m_heap m') i = Some (vlca vp vs).
Proof.
  intros G m primes subs params fl i m' W E. unfold conformed_with in E.
  bk E as p0 Ep0. bk E as s0 Es0.
  bk E as vp Evp. bk E as vs Evs.
  bk E as [[ps ss] m1] El.
  destruct (conform_loop_wf gt G _ _ _ _ _ _ _ _ _ _ W (tm_wf_nil _) El) as (W1 & X1 & N1 & N2 & F1 & F2).
  assert (primes <> []) as NE by (intros ->; discriminate).
  assert (ps <> []) as NEp by (destruct ps; [destruct primes; simpl in *; congruence|discriminate]).
  assert (exists l r, subtree (m_vt m) (vlca vp vs) = Some (VNode l r)) as HV.
  { destruct ps as [|x ps]; [congruence|]. inversion F1 as [|? ? (q & Hq & _) _]; subst. unfold vkid in Hq.
    destruct (subtree (m_vt m) (vlca vp vs)) as [[v|l r]|]; try discriminate. eauto. }
  destruct HV as (l & r & HV). unfold vkid in F1, F2. rewrite HV in F1, F2.
  destruct (new_dec_wf m1 (vlca vp vs) fl ps ss params i m') as (W2 & X2 & L2 & V2 & _); auto.
  - exists l, r. rewrite (me_vt _ _ _ X1). exact HV.
  - eapply Forall_impl; [|exact F1]. intros a (q & Hq & H). congruence.
  - eapply Forall_impl; [|exact F2]. intros a (q & Hq & H). congruence.
  - split; auto. split; [eapply mext_trans; eauto|]. split; auto.
    exists p0, s0, vp, vs.
    destruct (hd_error primes); [|discriminate]. destruct (hd_error subs); [|discriminate].
    simpl in Ep0, Es0. injection Ep0 as ->. injection Es0 as ->.
    destruct (vt_of (m_heap m) p0); [|discriminate]. destruct (vt_of (m_heap m) s0); [|discriminate].
    simpl in Evp, Evs. injection Evp as ->. injection Evs as ->. auto.
Qed.
Lemma true_step_wf gt : gt_wf gt -> forall fl tm m p t tm' m', Wf m -> tm_wf tm m ->
  subtree (m_vt m) p = Some t ->
  true_step gt fl (tm, m) (p, t) = Ok (tm', m') ->
  Wf m' /\ mext fl m m' /\ tm_wf tm' m'.
Proof.
  intros G fl tm m p t tm' m' W T S E. unfold true_step in E. destruct t as [v|l r].
  - bk E as [i m1] Et. injection E as <- <-.
    destruct (top_wf _ _ _ _ _ _ _ W Et) as (W1 & X1 & _ & q & Eq & Vq).
    split; auto. split; auto. rewrite <- (me_vt _ _ _ X1). 
    apply (tm_wf_insert tm m1 p (Leaf v) i); auto.
    + eapply tm_wf_ext; eauto.
    + rewrite (me_vt _ _ _ X1). auto.
    + rewrite (leaf_path_unique (m_vt m) p v) in Eq; auto; [congruence|apply W].
  - destruct (nlookup (vpos (m_vt m) (false :: p)) tm) as [li|] eqn:El; [|discriminate].
    destruct (nlookup (vpos (m_vt m) (true :: p)) tm) as [ri|] eqn:Er; [|discriminate].
    bk E as [i m1] Et. injection E as <- <-.
    destruct (conformed_with_wf gt G _ _ _ _ _ _ _ W Et) as (W1 & X1 & _ & p0 & s0 & vp & vs & E1 & E2 & E3 & E4 & E5).
    injection E1 as <-. injection E2 as <-.
    destruct (T _ _ El) as (pl & sl & A1 & A2 & A3). destruct (T _ _ Er) as (pr & sr & B1 & B2 & B3).
    assert (pl = false :: p) as ->. { apply (vpos_inj (m_vt m) _ _ sl l); auto. simpl. rewrite S. reflexivity. }
    assert (pr = true :: p) as ->. { apply (vpos_inj (m_vt m) _ _ sr r); auto. simpl. rewrite S. reflexivity. }
    rewrite A3 in E3. rewrite B3 in E4. injection E3 as <-. injection E4 as <-.
    rewrite (vlca_split [] [] p : vlca (false :: p) (true :: p) = p) in E5.
    split; auto. split; auto. rewrite <- (me_vt _ _ _ X1).
    apply (tm_wf_insert tm m1 p (VNode l r) i); auto.
    + eapply tm_wf_ext; eauto.
    + rewrite (me_vt _ _ _ X1). auto.
Qed.
Lemma true_fold_wf gt : gt_wf gt -> forall fl L tm m tm' m', Wf m -> tm_wf tm m ->
  Forall (fun x => subtree (m_vt m) (fst x) = Some (snd x)) L ->
  foldM (true_step gt fl) L (tm, m) = Ok (tm', m') ->
  Wf m' /\ mext fl m m' /\ tm_wf tm' m'.
Proof.
  intros G fl. induction L as [|[p t] L IH]; intros tm m tm' m' W T F E; cbn [foldM] in E.
  - injection E as <- <-. auto using mext_refl.
  - bk E as [tm1 m1] E1. inversion F as [|? ? F1 F2]; subst.
    destruct (true_step_wf gt G _ _ _ _ _ _ _ W T F1 E1) as (W1 & X1 & T1).
    destruct (IH tm1 m1 tm' m' W1 T1) as (W2 & X2 & T2); auto.
    { eapply Forall_impl; [|exact F2]. simpl. intros x. rewrite (me_vt _ _ _ X1). auto. }
    split; auto. split; auto. eapply mext_trans; eauto.
Qed.
Lemma ser_subtrees root p t ser : subtree root p = Some t -> SerializeVtree p t = Ok ser ->
  Forall (fun x => subtree root (fst x) = Some (snd x)) ser.
Proof.
  intros S E. destruct (serialize_vtree_spec p t) as (L & HL & PL & _). rewrite E in HL. injection HL as <-.
  apply Forall_forall. intros [q s] Hx. apply (Permutation_in _ PL) in Hx. simpl.
  apply (nodes_subtree root t p S) in Hx as (u & -> & Hu). rewrite subtree_app, S. exact Hu.
Qed.
Lemma get_true_wf fuel : gt_wf (get_true fuel).
Proof.
  induction fuel as [|f IH]; intros p fl tm m i tm' m' W T [t S] E; simpl in E; [discriminate|].
  destruct (nlookup (vpos (m_vt m) p) tm) as [j|] eqn:El.
  - injection E as <- <- <-. split; auto. split; [apply mext_refl|]. split; auto.
    destruct (T _ _ El) as (q & s & A & B & C).
    assert (q = p) as -> by (eapply vpos_inj; eauto). exact C.
  - rewrite S in E. simpl in E. bk E as ser Es. bk E as [tm1 m1] Ef.
    destruct (true_fold_wf _ IH fl (rev ser) tm m tm1 m1 W T) as (W1 & X1 & T1); auto.
    { apply Forall_rev. eapply ser_subtrees; eauto. }
    destruct (nlookup (vpos (m_vt m) p) tm1) as [j|] eqn:El1; [|discriminate]. injection E as <- <- <-.
    split; auto. split; auto. split; auto.
    destruct (T1 _ _ El1) as (q & s & A & B & C). rewrite (me_vt _ _ _ X1) in *.
    assert (q = p) as -> by (eapply vpos_inj; eauto). exact C.
Qed.

(** ** The public operations *)
Lemma get_true_node_wf m p fl i m' : Wf m -> (exists s, subtree (m_vt m) p = Some s) ->
  GetTrueNode p fl m = Ok (i, m') -> Wf m' /\ mext fl m m' /\ vt_of (m_heap m') i = Some p.
Proof.
  intros W S E. unfold GetTrueNode in E. bk E as [[j tm] m1] E1. injection E as <- <-.
  destruct (get_true_wf gt_fuel _ _ _ _ _ _ _ W (tm_wf_nil _) S E1) as (A & B & _ & C). auto.
Qed.
Lemma normalize_node_wf m target cur fl i m' : Wf m ->
  NormalizePsddNode target cur fl m = Ok (i, m') ->
  Wf m' /\ mext fl m m' /\ exists q, target = Some q /\ vt_of (m_heap m') i = Some q.
Proof.
  intros W E. unfold NormalizePsddNode in E. bk E as [[j tm] m1] E1. injection E as <- <-.
  destruct (normalize_with_wf _ (get_true_wf gt_fuel) _ _ _ _ _ _ _ _ W (tm_wf_nil _) E1) as (A & B & _ & C). auto.
Qed.
Lemma conformed_wf m primes subs params fl i m' : Wf m ->
  GetConformedPsddDecisionNode m primes subs params fl = Ok (i, m') ->
  Wf m' /\ mext fl m m' /\ In i (m_live m') /\
  exists p0 s0 vp vs, hd_error primes = Some p0 /\ hd_error subs = Some s0 /\
    vt_of (m_heap m) p0 = Some vp /\ vt_of (m_heap m) s0 = Some vs /\ vt_of (m_heap m') i = Some (vlca vp vs).
Proof. apply conformed_with_wf, get_true_wf. Qed.

Lemma load_step_wf hs fl ud m i ud' m' : Wf m -> load_step hs fl (ud, m) i = Ok (ud', m') -> Wf m' /\ mext fl m m'.
Proof.
  intros W E. unfold load_step in E. bk E as nd _. destruct (n_body nd).
  - bk E as [j m1] E1. injection E as <- <-. apply literal_wf in E1 as (A & B & _); auto.
  - bk E as [j m1] E1. injection E as <- <-. apply top_wf in E1 as (A & B & _); auto.
  - bk E as ps _. bk E as ss _.
    bk E as [j m1] E1. injection E as <- <-. apply conformed_wf in E1 as (A & B & _); auto.
Qed.
Lemma load_fold_wf hs fl L : forall ud m ud' m', Wf m -> foldM (load_step hs fl) L (ud, m) = Ok (ud', m') -> Wf m' /\ mext fl m m'.
Proof.
  induction L as [|i L IH]; intros ud m ud' m' W E; cbn [foldM] in E.
  - injection E as <- <-. auto using mext_refl.
  - bk E as [ud1 m1] E1. apply load_step_wf in E1 as [W1 X1]; auto.
    apply IH in E as [W2 X2]; auto. split; auto. eapply mext_trans; eauto.
Qed.
Lemma load_wf hs ud target root fl m j ud' m' : Wf m -> LoadPsddNode hs ud target root fl m = Ok (j, ud', m') ->
  Wf m' /\ mext fl m m' /\ exists q, target = Some q /\ vt_of (m_heap m') j = Some q.
Proof.
  intros W E. unfold LoadPsddNode in E. bk E as ser _. bk E as [ud1 m1] E1.
  bk E as r _. bk E as [j2 m2] E2. injection E as <- <- <-.
  apply load_fold_wf in E1 as [W1 X1]; auto. apply normalize_node_wf in E2 as (W2 & X2 & V); auto.
  split; auto. split; [eapply mext_trans; eauto|auto].
Qed.

Lemma mul_fold_wf (rec : nat -> nat -> mgr * mcache -> res (mres * (mgr * mcache))) fl :
  (forall a b s r s', Wf (fst s) -> rec a b s = Ok (r, s') -> Wf (fst s') /\ mext fl (fst s) (fst s')) ->
  forall L acc part s acc' part' s', Wf (fst s) -> foldM (mul_pair rec) L (acc, part, s) = Ok (acc', part', s') ->
  Wf (fst s') /\ mext fl (fst s) (fst s').
Proof.
  intros HR. induction L as [|[a b] L IH]; intros acc part s acc' part' s' W E; cbn [foldM] in E.
  - injection E as <- <- <-. auto using mext_refl.
  - bk E as [[acc1 part1] s1] E1. unfold mul_pair in E1.
    bk E1 as [pr s2] E2. apply HR in E2 as [W2 X2]; auto.
    destruct (fst pr) as [pi|].
    + bk E1 as [sr s3] E3. apply HR in E3 as [W3 X3]; auto.
      assert (s1 = s3) as -> by (destruct (fst sr); congruence). apply IH in E as [W4 X4]; auto.
      split; auto. eapply mext_trans; [|eapply mext_trans]; eauto.
    + injection E1 as <- <- <-. apply IH in E as [W4 X4]; auto. split; auto. eapply mext_trans; eauto.
Qed.
Ltac done_mul H := unfold cache_update in H; repeat (apply bind_ok in H as (? & ? & H)); injection H as <- <-; simpl; auto using mext_refl.
Lemma multiply_cache_wf fl fuel : forall a b s r s', Wf (fst s) -> multiply_with_cache fuel fl a b s = Ok (r, s') ->
  Wf (fst s') /\ mext fl (fst s) (fst s').
Proof.
  induction fuel as [|f IH]; intros a b [m c] r s' W E; cbn [multiply_with_cache] in E; [discriminate|]. simpl in W.
  bk E as pos _.
  destruct (alookup key_eqb (pos, a, b) c) as [x|]; [injection E as <- <-; simpl; auto using mext_refl|].
  bk E as na _. bk E as nb _. bk E as _ _.
  destruct (n_body na) as [la|va ta fa|ea] eqn:Ea; destruct (n_body nb) as [lb|vb tb fb|eb] eqn:Eb; try discriminate.
  - bk E as _ _. destruct (Z.eqb la lb).
    + bk E as [i m1] E1. apply literal_wf in E1 as (A & B & _); auto. done_mul E.
    + done_mul E.
  - bk E as _ _. bk E as [i m1] E1. apply literal_wf in E1 as (A & B & _); auto. done_mul E.
  - bk E as _ _. bk E as [i m1] E1. apply literal_wf in E1 as (A & B & _); auto. done_mul E.
  - bk E as _ _. bk E as [i m1] E1. apply top_wf in E1 as (A & B & _); auto.
    bk E as nd _. destruct (n_body nd); try discriminate. done_mul E.
  - bk E as [[acc part] [m1 c1]] E1. apply (mul_fold_wf _ fl IH) in E1 as [W1 X1]; auto. simpl in W1, X1.
    destruct acc as [|e acc].
    + done_mul E.
    + bk E as _ _. bk E as [i m2] E2.
      apply conformed_wf in E2 as (W2 & X2 & _); auto. done_mul E. split; auto. eapply mext_trans; eauto.
Qed.
Lemma multiply_wf m a b fl r m' : Wf m -> Multiply m a b fl = Ok (r, m') -> Wf m' /\ mext fl m m'.
Proof.
  intros W E. unfold Multiply in E. bk E as [r1 s1] E1. injection E as <- <-.
  apply multiply_cache_wf in E1; auto.
Qed.

(** ** Garbage collection *)
Lemma wf_filter m f : Wf m -> Wf (MkM (m_vt m) (m_heap m) (filter f (m_live m))).
Proof.
  intros [W1 W2 W3 W4 W5]. split; simpl; auto.
  - intros i Hi. apply filter_In in Hi as [Hi _]. auto.
  - apply NoDup_filter. auto.
  - intros i j a b Hi Hj. simpl in *. apply filter_In in Hi as [Hi _], Hj as [Hj _]. eapply W5; eauto.
Qed.
Lemma wf_new t : NoDup (leaves t) -> Wf (new_mgr t).
Proof.
  intros H. split; simpl; auto.
  - intros i nd E. destruct i; discriminate.
  - intros i [].
  - constructor.
  - intros i j a b [].
Qed.
End Structure.
