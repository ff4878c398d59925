(** Proofs about the vtree utilities. *)
From Verif Require Import Base Vtree.

Lemma path_eqb_true p q : path_eqb p q = true <-> p = q.
Proof. unfold path_eqb. destruct (list_eq_dec bool_dec p q); split; congruence. Qed.
Lemma path_eqb_refl p : path_eqb p p = true.
Proof. apply path_eqb_true; reflexivity. Qed.
Lemma path_eqb_false p q : path_eqb p q = false <-> p <> q.
Proof. unfold path_eqb. destruct (list_eq_dec bool_dec p q); split; congruence. Qed.

Lemma vsize_pos t : 1 <= vsize t.
Proof. induction t; simpl; lia. Qed.
Lemma leaves_nonempty t : leaves t <> [].
Proof. induction t; simpl; [discriminate|]. destruct (leaves t1); [contradiction|discriminate]. Qed.
Lemma vsize_leaves t : vsize t = 2 * length (leaves t) - 1 /\ 1 <= length (leaves t).
Proof. induction t; simpl; [lia|]. rewrite app_length. lia. Qed.

(** ** Paths *)
Lemma subtree_app root p q : subtree root (q ++ p) =
  match subtree root p with Some t => subtree t q | None => None end.
Proof.
  induction q as [|b q IH]; simpl; [destruct (subtree root p); reflexivity|].
  rewrite IH. destruct (subtree root p); reflexivity.
Qed.

Lemma nodes_subtree root : forall t p, subtree root p = Some t ->
  forall q s, In (q, s) (nodes p t) <-> exists u, q = u ++ p /\ subtree t u = Some s.
Proof.
  induction t as [v|l IHl r IHr]; intros p Hp q s; simpl.
  - split.
    + intros [E|[]]. injection E as <- <-. exists []; auto.
    + intros (u & -> & Hu). left. 
      assert (u = []) as -> by (destruct u as [|b u] using rev_ind; auto;
        rewrite subtree_app in Hu; simpl in Hu; discriminate).
      simpl in *. congruence.
  - rewrite in_app_iff.
    rewrite (IHl (false :: p)) by (simpl; rewrite Hp; reflexivity).
    rewrite (IHr (true :: p)) by (simpl; rewrite Hp; reflexivity).
    split.
    + intros [E|[(u & -> & Hu)|(u & -> & Hu)]].
      * injection E as <- <-. exists []; auto.
      * exists (u ++ [false]). rewrite <- app_assoc. split; auto. rewrite subtree_app. simpl. exact Hu.
      * exists (u ++ [true]). rewrite <- app_assoc. split; auto. rewrite subtree_app. simpl. exact Hu.
    + intros (u & -> & Hu). destruct u as [|b u _] using rev_ind.
      * left. simpl in *. congruence.
      * right. rewrite subtree_app in Hu. simpl in Hu. rewrite <- app_assoc. simpl.
        destruct b; [right|left]; exists u; auto.
Qed.

Lemma nodes_root root q s : In (q, s) (nodes [] root) <-> subtree root q = Some s.
Proof.
  rewrite (nodes_subtree root root [] eq_refl). split.
  - intros (u & -> & H). rewrite app_nil_r. exact H.
  - intros H. exists q. rewrite app_nil_r. auto.
Qed.

Lemma in_nodes_suffix p t q s : In (q, s) (nodes p t) -> exists u, q = u ++ p.
Proof.
  revert p; induction t as [v|l IHl r IHr]; intros p; simpl.
  - intros [E|[]]. injection E as <- <-. exists []; auto.
  - rewrite in_app_iff. intros [E|[H|H]].
    + injection E as <- <-. exists []; auto.
    + apply IHl in H as [u ->]. exists (u ++ [false]). rewrite <- app_assoc; auto.
    + apply IHr in H as [u ->]. exists (u ++ [true]). rewrite <- app_assoc; auto.
Qed.

Lemma suffix_disjoint (p u v : path) : u ++ false :: p = v ++ true :: p -> False.
Proof.
  intros H. assert (length u = length v) as L.
  { apply (f_equal (@length bool)) in H. rewrite !app_length in H. simpl in H. lia. }
  revert v H L. induction u as [|b u IH]; intros [|c v] H L; simpl in *; try discriminate.
  injection H as _ H. eapply IH; eauto.
Qed.
Lemma suffix_cons_irrefl (p u : path) b : p = u ++ b :: p -> False.
Proof. intros H. apply (f_equal (@length bool)) in H. rewrite app_length in H. simpl in H. lia. Qed.

Lemma NoDup_app_intro {A} (l1 l2 : list A) :
  NoDup l1 -> NoDup l2 -> (forall x, In x l1 -> In x l2 -> False) -> NoDup (l1 ++ l2).
Proof.
  induction 1 as [|x l1 Hx H1 IH]; intros H2 H; simpl; [exact H2|].
  constructor.
  - rewrite in_app_iff. intros [A1|A1]; [contradiction | eapply H; [left; reflexivity|exact A1]].
  - apply IH; auto. intros y Y1 Y2. eapply H; [right; exact Y1 | exact Y2].
Qed.

Lemma NoDup_app_inv {A} (l1 l2 : list A) :
  NoDup (l1 ++ l2) -> NoDup l1 /\ NoDup l2 /\ (forall x, In x l1 -> In x l2 -> False).
Proof.
  induction l1 as [|x l1 IH]; simpl; intros H.
  - repeat split; auto; constructor.
  - inversion H as [|? ? Hx H']; subst. apply IH in H' as (A1 & A2 & A3). repeat split; auto.
    + constructor; auto. intros I. apply Hx. apply in_app_iff; auto.
    + intros y [->|Hy] Hy2; [apply Hx; apply in_app_iff; auto | eauto].
Qed.

Lemma nodes_NoDup p t : NoDup (map fst (nodes p t)).
Proof.
  revert p; induction t as [v|l IHl r IHr]; intros p; simpl.
  - repeat constructor; auto.
  - constructor.
    + rewrite map_app, in_app_iff, !in_map_iff. intros [((q & s) & E & H)|((q & s) & E & H)]; simpl in E; subst q.
      * apply in_nodes_suffix in H as [u H]. eapply suffix_cons_irrefl; eauto.
      * apply in_nodes_suffix in H as [u H]. eapply suffix_cons_irrefl; eauto.
    + rewrite map_app. apply NoDup_app_intro; auto.
      intros q. rewrite !in_map_iff. intros ((q1 & s) & E1 & H1) ((q2 & s2) & E2 & H2). simpl in *; subst.
      apply in_nodes_suffix in H1 as [u ->]. apply in_nodes_suffix in H2 as [v H2].
      eapply suffix_disjoint; eauto.
Qed.

Lemma nodes_length p t : length (nodes p t) = vsize t.
Proof. revert p; induction t; intros p; simpl; auto. rewrite app_length, IHt1, IHt2. lia. Qed.

(** ** Breadth-first serialization *)
Definition qsize (q : list (path * vtree)) : nat := list_sum (map (fun x => vsize (snd x)) q).
Lemma qsize_app a b : qsize (a ++ b) = qsize a + qsize b.
Proof. unfold qsize. rewrite map_app, list_sum_app. reflexivity. Qed.
Lemma qsize_kids x : qsize (kids x) = vsize (snd x) - 1.
Proof. destruct x as [p [v|l r]]; unfold qsize; simpl; auto. lia. Qed.

Definition allnodes (q : list (path * vtree)) := flat_map (fun x => nodes (fst x) (snd x)) q.
Lemma allnodes_kids x : nodes (fst x) (snd x) = x :: allnodes (kids x).
Proof. destruct x as [p [v|l r]]; simpl; auto. rewrite app_nil_r. reflexivity. Qed.
Lemma allnodes_app a b : allnodes (a ++ b) = allnodes a ++ allnodes b.
Proof. apply flat_map_app. Qed.

Lemma bfs_spec : forall fuel q, qsize q <= fuel ->
  exists L, bfs fuel q = Ok L /\ Permutation L (allnodes q) /\
    (forall L1 x L2, L = L1 ++ x :: L2 -> forall c, In c (kids x) -> In c L2).
Proof.
  induction fuel as [|f IH]; intros [|x q] Hq; simpl.
  - exists []; repeat split; auto. intros [|] ? ? H; discriminate.
  - exfalso. unfold qsize in Hq; simpl in Hq. pose proof (vsize_pos (snd x)). lia.
  - exists []; repeat split; auto. intros [|] ? ? H; discriminate.
  - destruct (IH (q ++ kids x)) as (L & HL & PL & TL).
    { rewrite qsize_app, qsize_kids. unfold qsize in *. simpl in Hq. pose proof (vsize_pos (snd x)). lia. }
    rewrite HL. simpl. exists (x :: L). split; [reflexivity|]. split.
    + rewrite allnodes_kids. simpl. constructor. rewrite PL, allnodes_app. apply Permutation_app_comm.
    + intros [|y L1] z L2 E c Hc; simpl in E; injection E as -> E.
      * subst L2. eapply Permutation_in; [symmetry; exact PL|]. rewrite allnodes_app, in_app_iff. right.
        unfold allnodes. apply in_flat_map. exists c. split; auto. destruct c as [cp [cv|cl cr]]; simpl; auto.
      * eapply TL; eauto.
Qed.

Lemma serialize_vtree_spec p t : exists L, SerializeVtree p t = Ok L /\ Permutation L (nodes p t) /\
    (exists L', L = (p, t) :: L') /\
    (forall L1 x L2, L = L1 ++ x :: L2 -> forall c, In c (kids x) -> In c L2).
Proof.
  unfold SerializeVtree. destruct (bfs_spec (vsize t) [(p, t)]) as (L & H1 & H2 & H3).
  - unfold qsize; simpl; lia.
  - exists L. split; [exact H1|]. split; [|split; [|exact H3]].
    + unfold allnodes in H2. simpl in H2. rewrite app_nil_r in H2. exact H2.
    + destruct (vsize t) as [|f] eqn:E; [pose proof (vsize_pos t); lia|]. simpl in H1.
      apply bind_ok in H1 as (rest & _ & H1). injection H1 as <-. eauto.
Qed.

(** ** Data-passing passes over the reversed serialization *)
Section Pass.
  (** [val x] is the value the pass should leave in the data pointer of node [x]. *)
  Variable value : path * vtree -> option vtree.
  Variable step : vdata -> path * vtree -> res vdata.
  (** The step only reads the kids' data, and moves the result to the node, clearing the kids. *)
  Hypothesis step_ok : forall d x, (forall c, In c (kids x) -> d (fst c) = value c) ->
    exists d', step d x = Ok d' /\ forall q,
      d' q = if path_eqb q (fst x) then value x
             else if existsb (path_eqb q) (map fst (kids x)) then None else d q.

  Definition parents_of (L : list (path * vtree)) (q : path) : bool :=
    existsb (fun x => existsb (path_eqb q) (map fst (kids x))) L.

  Lemma kids_fst_path x c : In c (kids x) -> exists b, fst c = b :: fst x.
  Proof. destruct x as [p [v|l r]]; simpl; [intros []|]. intros [<-|[<-|[]]]; simpl; eauto. Qed.

  (** After processing the nodes [L2] (a suffix of the serialization, last first):
      a processed node whose parent is unprocessed holds its value; a processed node whose
      parent is processed is cleared; others are untouched. *)
  Lemma pass_spec L d0 :
    NoDup (map fst L) ->
    (forall L1 x L2, L = L1 ++ x :: L2 -> forall c, In c (kids x) -> In c L2) ->
    exists d', foldM step (rev L) d0 = Ok d' /\
      forall q, d' q = if parents_of L q then None
                       else match find (fun x => path_eqb q (fst x)) L with
                            | Some x => value x
                            | None => d0 q
                            end.
  Proof.
    induction L as [|x L IH]; intros ND TP; simpl.
    - exists d0. split; auto.
    - inversion ND as [|? ? Hx ND']; subst.
      destruct IH as (d1 & H1 & H2); auto.
      { intros L1 y L2 E c Hc. apply (TP (x :: L1) y L2); auto. simpl; congruence. }
      rewrite foldM_app, H1. simpl.
      assert (forall c, In c (kids x) -> In c L) as KL by (apply (TP [] x L); reflexivity).
      destruct (step_ok d1 x) as (d2 & H3 & H4).
      + intros c Hc. rewrite H2.
        destruct (parents_of L (fst c)) eqn:PL.
        * (* c has a parent in L besides x: impossible, the parent's path is determined *)
          exfalso. unfold parents_of in PL. apply existsb_exists in PL as (y & Hy & PL).
          apply existsb_exists in PL as (q & Hq & E). apply path_eqb_true in E. subst q.
          apply in_map_iff in Hq as (c' & E & Hc').
          apply kids_fst_path in Hc as [b Hb]. apply kids_fst_path in Hc' as [b' Hb'].
          apply Hx. rewrite in_map_iff. exists y. split; auto. congruence.
        * destruct (find (fun y => path_eqb (fst c) (fst y)) L) as [y|] eqn:F.
          -- apply find_some in F as [Hy E]. apply path_eqb_true in E.
             assert (c = y) as ->; auto.
             { destruct (in_split _ _ (KL c Hc)) as (A & B & EL). rewrite EL in ND', Hy.
               rewrite map_app in ND'. simpl in ND'. apply NoDup_remove_2 in ND'.
               rewrite in_app_iff in Hy. destruct Hy as [Hy|[Hy|Hy]]; auto; exfalso; apply ND';
               rewrite E, in_app_iff; [left|right]; apply in_map; auto. }
          -- exfalso. apply find_none with (x := c) in F; [|auto]. rewrite path_eqb_refl in F. discriminate.
      + rewrite H3. simpl. exists d2. split; auto. intros q. rewrite H4.
        destruct (path_eqb q (fst x)) eqn:E1.
        * apply path_eqb_true in E1. subst q.
          destruct (existsb (path_eqb (fst x)) (map fst (kids x))) eqn:E2.
          { exfalso. apply existsb_exists in E2 as (q & Hq & E). apply path_eqb_true in E. subst q.
            apply in_map_iff in Hq as (c & E & Hc). apply kids_fst_path in Hc as [b Hb]. 
            rewrite Hb in E. apply (f_equal (@length bool)) in E. simpl in E. lia. }
          destruct (parents_of L (fst x)) eqn:E3; [|reflexivity].
          exfalso. unfold parents_of in E3. apply existsb_exists in E3 as (y & Hy & E3).
          apply existsb_exists in E3 as (q & Hq & E). apply path_eqb_true in E. subst q.
          apply in_map_iff in Hq as (c & E & Hc).
          assert (In c L) as Hc2.
          { destruct (in_split _ _ Hy) as (A & B & EL). 
            assert (In c B) as I by (apply (TP (x :: A) y B); [simpl; congruence|auto]).
            rewrite EL. apply in_app_iff. right; right; auto. }
          apply Hx. rewrite <- E. apply in_map; auto.
        * simpl. destruct (existsb (path_eqb q) (map fst (kids x))) eqn:E2; simpl; [reflexivity|].
          apply H2.
  Qed.
End Pass.

(** ** CopyVtree *)
Fixpoint rename_vtree (f : N -> option N) (t : vtree) : option vtree :=
  match t with
  | Leaf v => option_map Leaf (f v)
  | VNode l r => match rename_vtree f l, rename_vtree f r with
                 | Some l', Some r' => Some (VNode l' r')
                 | _, _ => None
                 end
  end.

Lemma rename_id t : rename_vtree Some t = Some t.
Proof. induction t; simpl; auto. rewrite IHt1, IHt2. reflexivity. Qed.

Definition covers (f : N -> option N) (t : vtree) := forall v, In v (leaves t) -> f v <> None.
Lemma rename_some f t : covers f t -> exists t', rename_vtree f t = Some t'.
Proof.
  unfold covers. induction t as [v|l IHl r IHr]; simpl; intros H.
  - specialize (H v (or_introl eq_refl)). destruct (f v); [simpl; eauto|congruence].
  - destruct IHl as [l' ->]; [intros v Hv; apply H, in_app_iff; auto|].
    destruct IHr as [r' ->]; [intros v Hv; apply H, in_app_iff; auto|]. eauto.
Qed.

Lemma nodes_leaves p t q s v : In (q, s) (nodes p t) -> In v (leaves s) -> In v (leaves t).
Proof.
  revert p; induction t as [w|l IHl r IHr]; intros p; simpl.
  - intros [E|[]]. injection E as <- <-. auto.
  - rewrite !in_app_iff. intros [E|[H|H]].
    + injection E as <- <-. simpl. rewrite in_app_iff; auto.
    + eauto.
    + eauto.
Qed.

Definition inside (p q : path) : Prop := exists u, q = u ++ p.

Lemma find_in_nodes p t L q : Permutation L (nodes p t) ->
  (exists s, In (q, s) (nodes p t) /\ find (fun x => path_eqb q (fst x)) L = Some (q, s)) \/
  ((forall s, ~ In (q, s) (nodes p t)) /\ find (fun x => path_eqb q (fst x)) L = None).
Proof.
  intros PL. destruct (find _ L) as [[q' s]|] eqn:F.
  - apply find_some in F as [Hin E]. simpl in E. apply path_eqb_true in E. subst q'.
    left. exists s. split; auto. eapply Permutation_in; eauto.
  - right. split; auto. intros s Hs. apply (Permutation_in _ (Permutation_sym PL)) in Hs.
    apply find_none with (x := (q, s)) in F; auto. simpl in F. rewrite path_eqb_refl in F. discriminate.
Qed.

Lemma nodes_refl p t : In (p, t) (nodes p t).
Proof. destruct t; simpl; auto. Qed.

Lemma nodes_fun p t q s s' : In (q, s) (nodes p t) -> In (q, s') (nodes p t) -> s = s'.
Proof.
  intros H1 H2. pose proof (nodes_NoDup p t) as ND.
  apply in_split in H1 as (A & B & E). rewrite E in ND, H2. rewrite map_app in ND. simpl in ND.
  apply NoDup_remove_2 in ND. rewrite in_app_iff in H2. destruct H2 as [H|[H|H]].
  - exfalso; apply ND. rewrite in_app_iff. left. apply in_map_iff. exists (q, s'); auto.
  - congruence.
  - exfalso; apply ND. rewrite in_app_iff. right. apply in_map_iff. exists (q, s'); auto.
Qed.

Lemma parent_in p t q s b : In (b :: q, s) (nodes p t) -> b :: q <> p -> exists x, In (q, x) (nodes p t) /\ In (b :: q, s) (kids (q, x)).
Proof.
  revert p; induction t as [v|l IHl r IHr]; intros p H N; simpl in H.
  - destruct H as [E|[]]. injection E as E _. congruence.
  - rewrite in_app_iff in H. destruct H as [E|[H|H]].
    + injection E as E _. congruence.
    + destruct (list_eq_dec bool_dec (b :: q) (false :: p)) as [E|E].
      * rewrite E in H. assert (s = l) as -> by (eapply nodes_fun; [exact H | apply nodes_refl]).
        injection E as -> ->. exists (VNode l r). split; [apply nodes_refl | simpl; auto].
      * apply IHl in H as (x & Hx & Hk); auto. exists x. split; auto. simpl. rewrite in_app_iff; auto.
    + destruct (list_eq_dec bool_dec (b :: q) (true :: p)) as [E|E].
      * rewrite E in H. assert (s = r) as -> by (eapply nodes_fun; [exact H | apply nodes_refl]).
        injection E as -> ->. exists (VNode l r). split; [apply nodes_refl | simpl; auto].
      * apply IHr in H as (x & Hx & Hk); auto. exists x. split; auto. simpl. rewrite in_app_iff; auto.
Qed.

Lemma parents_of_nodes p t L q : Permutation L (nodes p t) ->
  parents_of L q = true <-> (exists s, In (q, s) (nodes p t)) /\ q <> p.
Proof.
  intros PL. unfold parents_of. rewrite existsb_exists. split.
  - intros (x & Hx & E). apply existsb_exists in E as (q' & Hq & E). apply path_eqb_true in E. subst q'.
    apply in_map_iff in Hq as (c & E & Hc). destruct x as [xp xt].
    apply (Permutation_in _ PL) in Hx.
    pose proof (kids_fst_path _ _ Hc) as [b Hb]. simpl in Hb.
    assert (In c (nodes p t)) as Hcn.
    { clear - Hx Hc. revert p Hx. induction t as [v|l IHl r IHr]; intros p Hx; simpl in Hx.
      - destruct Hx as [E|[]]. injection E as <- <-. destruct Hc.
      - rewrite in_app_iff in Hx. destruct Hx as [E|[H|H]].
        + injection E as <- <-. simpl. rewrite in_app_iff. simpl in Hc.
          destruct Hc as [<-|[<-|[]]]; auto using nodes_refl.
        + simpl; rewrite in_app_iff; auto.
        + simpl; rewrite in_app_iff; auto. }
    split.
    + exists (snd c). rewrite <- E. destruct c; auto.
    + apply in_nodes_suffix in Hx as [u Hu]. intros ->. rewrite Hb in E. rewrite Hu in E. 
      symmetry in E. change (b :: u ++ p) with ((b :: u) ++ p) in E.
      apply (f_equal (@length bool)) in E. rewrite app_length in E. simpl in E. lia.
  - intros [(s & Hs) N]. destruct q as [|b q].
    { apply in_nodes_suffix in Hs as [u Hu]. symmetry in Hu. apply app_eq_nil in Hu as [-> ->]. congruence. }
    apply parent_in in Hs as (x & Hx & Hk); auto. exists (q, x). split.
    + apply (Permutation_in _ (Permutation_sym PL)); auto.
    + apply existsb_exists. exists (b :: q). split; [|apply path_eqb_refl].
      apply in_map_iff. exists (b :: q, s). auto.
Qed.

Lemma ser_nodup p t L : Permutation L (nodes p t) -> NoDup (map fst L).
Proof. intros H. eapply Permutation_NoDup; [apply Permutation_map, Permutation_sym, H | apply nodes_NoDup]. Qed.

(** Final data of a pass, cleared at the root. *)
Lemma pass_final (value : path * vtree -> option vtree) p t L d0 d' :
  Permutation L (nodes p t) ->
  (forall q, d' q = if parents_of L q then None
                    else match find (fun x => path_eqb q (fst x)) L with Some x => value x | None => d0 q end) ->
  d' p = value (p, t) /\
  forall q, set_data d' p None q = if existsb (path_eqb q) (map fst (nodes p t)) then None else d0 q.
Proof.
  intros PL H. split.
  - rewrite H. destruct (parents_of L p) eqn:E.
    + apply (parents_of_nodes p t L p PL) in E as [_ E]. congruence.
    + destruct (find_in_nodes p t L p PL) as [(s & Hs & ->)|[N _]].
      * rewrite (nodes_fun _ _ _ _ _ Hs (nodes_refl p t)). reflexivity.
      * exfalso. eapply N, nodes_refl.
  - intros q. unfold set_data. destruct (path_eqb q p) eqn:Eq.
    + apply path_eqb_true in Eq. subst q.
      destruct (existsb _ _) eqn:E; [reflexivity|]. exfalso.
      assert (existsb (path_eqb p) (map fst (nodes p t)) = true) as X; [|congruence].
      apply existsb_exists. exists p. split; [|apply path_eqb_refl]. apply in_map_iff. exists (p, t). split; auto. apply nodes_refl.
    + rewrite H. apply path_eqb_false in Eq. destruct (existsb _ _) eqn:E.
      * apply existsb_exists in E as (q' & Hq & E). apply path_eqb_true in E. subst q'.
        apply in_map_iff in Hq as ((q' & s) & E & Hs). simpl in E. subst q'.
        assert (parents_of L q = true) as ->; [|reflexivity].
        apply (parents_of_nodes p t L q PL). eauto.
      * assert (forall s, ~ In (q, s) (nodes p t)) as N.
        { intros s Hs. assert (existsb (path_eqb q) (map fst (nodes p t)) = true) as X; [|congruence].
          apply existsb_exists. exists q. split; [|apply path_eqb_refl]. apply in_map_iff. exists (q, s). auto. }
        destruct (parents_of L q) eqn:E2.
        { apply (parents_of_nodes p t L q PL) in E2 as [(s & Hs) _]. exfalso. eapply N; eauto. }
        destruct (find_in_nodes p t L q PL) as [(s & Hs & _)|[_ ->]]; [exfalso; eapply N; eauto | reflexivity].
Qed.

Lemma copy_vtree_spec rename d p t : covers rename t ->
  exists t' d', CopyVtreeMap rename d p t = Ok (t', d') /\
    rename_vtree rename t = Some t' /\
    forall q, d' q = if existsb (path_eqb q) (map fst (nodes p t)) then None else d q.
Proof.
  intros HC. unfold CopyVtreeMap. destruct (serialize_vtree_spec p t) as (L & HL & PL & _ & TL).
  rewrite HL. simpl.
  (* the step on nodes of the tree *)
  set (value := fun x : path * vtree => rename_vtree rename (snd x)).
  assert (exists d', foldM (copy_step rename) (rev L) d = Ok d' /\
     forall q, d' q = if parents_of L q then None
                    else match find (fun x => path_eqb q (fst x)) L with Some x => value x | None => d q end) as (d' & H1 & H2).
  { (* strengthen the step outside the tree *)
    assert (forall x, In x L -> covers rename (snd x)) as CL.
    { intros [q s] Hx v Hv. apply HC. simpl in Hv. apply (Permutation_in _ PL) in Hx. eapply nodes_leaves; eauto. }
    set (step' := fun d x => if existsb (fun v => match rename v with None => true | _ => false end) (leaves (snd x))
                             then Ok (fun q => if path_eqb q (fst x) then value x
                                     else if existsb (path_eqb q) (map fst (kids x)) then None else d q)
                             else copy_step rename d x).
    assert (forall M, incl M L -> forall d, foldM (copy_step rename) M d = foldM step' M d) as EQ.
    { induction M as [|x M IH]; intros IM dd; simpl; auto.
      assert (step' dd x = copy_step rename dd x) as ->.
      { unfold step'. destruct (existsb _ _) eqn:E; auto. exfalso.
        apply existsb_exists in E as (v & Hv & E). specialize (CL x (IM x (or_introl eq_refl)) v Hv).
        destruct (rename v); congruence. }
      destruct (copy_step rename dd x); simpl; auto. apply IH. intros y Hy. apply IM. right; auto. }
    rewrite EQ by (intros x Hx; apply in_rev in Hx; auto).
    apply (pass_spec value step'); auto.
    - intros dd [q s] HK. unfold step'. simpl.
      destruct (existsb _ (leaves s)) eqn:E.
      + eexists. split; [reflexivity|]. reflexivity.
      + destruct s as [v|l r]; simpl.
        * simpl in E. destruct (rename v) as [v'|] eqn:EV; [|simpl in E; discriminate].
          eexists. split; [reflexivity|]. intros q'. unfold set_data. simpl.
          destruct (path_eqb q' q); [|reflexivity]. unfold value; simpl. rewrite EV. reflexivity.
        * assert (covers rename (VNode l r)) as CC.
          { intros v Hv HN. assert (existsb (fun v => match rename v with None => true | _ => false end) (leaves (VNode l r)) = true) as X; [|congruence].
            apply existsb_exists. exists v. split; auto. rewrite HN; auto. }
          assert (HKl := HK (false :: q, l) (or_introl eq_refl)).
          assert (HKr := HK (true :: q, r) (or_intror (or_introl eq_refl))). simpl in HKl, HKr.
          destruct (rename_some rename l) as [l' El]; [intros v Hv; apply CC; simpl; apply in_app_iff; auto|].
          destruct (rename_some rename r) as [r' Er]; [intros v Hv; apply CC; simpl; apply in_app_iff; auto|].
          rewrite HKl, HKr. unfold value at 1 2. simpl. rewrite El. simpl. rewrite Er. simpl.
          eexists. split; [reflexivity|]. intros q'. unfold set_data. simpl.
          destruct (path_eqb q' q) eqn:E1.
          -- unfold value; simpl. rewrite El, Er. reflexivity.
          -- destruct (path_eqb q' (true :: q)) eqn:E2; simpl; [rewrite orb_true_r; reflexivity|].
             destruct (path_eqb q' (false :: q)); reflexivity.
    - eapply ser_nodup; eauto. }
  rewrite H1. simpl. destruct (pass_final value p t L d d' PL H2) as [F1 F2].
  rewrite F1. unfold value; simpl. destruct (rename_some rename t HC) as [t' Et]. rewrite Et. simpl.
  exists t', (set_data d' p None). auto.
Qed.

Lemma copy_vtree_missing rename d p t : ~ covers rename t -> CopyVtreeMap rename d p t <> UB -> 
  forall t' d', CopyVtreeMap rename d p t <> Ok (t', d').
Proof.
  intros NC _ t' d'. unfold CopyVtreeMap. destruct (serialize_vtree_spec p t) as (L & HL & PL & _ & TL).
  rewrite HL. simpl. intros H. apply bind_ok in H as (d1 & H & _). apply NC. intros v Hv HN.
  assert (exists q, In (q, Leaf v) (nodes p t)) as [q Hq].
  { clear - Hv. revert p. induction t as [w|l IHl r IHr]; intros p; simpl in *.
    - destruct Hv as [->|[]]. exists p; auto.
    - apply in_app_iff in Hv. destruct Hv as [Hv|Hv].
      + destruct (IHl Hv (false :: p)) as [q Hq]. exists q. right. apply in_app_iff; auto.
      + destruct (IHr Hv (true :: p)) as [q Hq]. exists q. right. apply in_app_iff; auto. }
  apply (Permutation_in _ (Permutation_sym PL)) in Hq. apply in_rev in Hq.
  clear - H Hq HN. revert d H. induction (rev L) as [|x M IH]; intros d H; simpl in *; [contradiction|].
  apply bind_ok in H as (d2 & H1 & H2). destruct Hq as [->|Hq]; [|eauto].
  simpl in H1. rewrite HN in H1. discriminate.
Qed.

(** ** ProjectVtree *)
Fixpoint project (S : list N) (t : vtree) : option vtree :=
  match t with
  | Leaf v => if NmemB v S then Some (Leaf v) else None
  | VNode l r => match project S l, project S r with
                 | Some l', Some r' => Some (VNode l' r')
                 | Some l', None => Some l'
                 | None, r' => r'
                 end
  end.

Lemma project_vtree_eq S d p t : exists d',
  ProjectVtree S d p t = (do t' <- get (project S t) ;; Ok (t', d')) /\
  forall q, d' q = if existsb (path_eqb q) (map fst (nodes p t)) then None else d q.
Proof.
  unfold ProjectVtree. destruct (serialize_vtree_spec p t) as (L & HL & PL & _ & TL).
  rewrite HL. simpl.
  set (value := fun x : path * vtree => project S (snd x)).
  destruct (pass_spec value (fun d x => Ok (project_step S d x))) with (L := L) (d0 := d) as (d' & H1 & H2); auto.
  - intros dd [q s] HK. eexists. split; [reflexivity|]. intros q'. destruct s as [v|l r]; simpl.
    + unfold value; simpl. destruct (NmemB v S); unfold set_data; destruct (path_eqb q' q); reflexivity.
    + assert (HKl := HK (false :: q, l) (or_introl eq_refl)).
      assert (HKr := HK (true :: q, r) (or_intror (or_introl eq_refl))). simpl in HKl, HKr.
      assert (set_data dd (false :: q) None (true :: q) = dd (true :: q)) as ->.
      { unfold set_data. destruct (path_eqb (true :: q) (false :: q)) eqn:E; auto. apply path_eqb_true in E. congruence. }
      rewrite HKl, HKr. unfold value. simpl.
      destruct (project S l), (project S r); unfold set_data;
        destruct (path_eqb q' q), (path_eqb q' (true :: q)), (path_eqb q' (false :: q)); reflexivity.
  - eapply ser_nodup; eauto.
  - assert (fold_left (project_step S) (rev L) d = d') as ->.
    { clear - H1. revert d H1. induction (rev L) as [|x M IH]; simpl; intros d H; [congruence|]. auto. }
    destruct (pass_final value p t L d d' PL H2) as [F1 F2].
    exists (set_data d' p None). split; auto. rewrite F1. reflexivity.
Qed.

Lemma project_leaves S t :
  match project S t with
  | Some t' => leaves t' = filter (fun v => NmemB v S) (leaves t)
  | None => filter (fun v => NmemB v S) (leaves t) = []
  end.
Proof.
  induction t as [v|l IHl r IHr]; simpl.
  - destruct (NmemB v S); reflexivity.
  - rewrite filter_app. destruct (project S l), (project S r); simpl; rewrite IHl, IHr; auto using app_nil_r.
Qed.

(** [s] is a subtree of [t]. *)
Definition is_subtree (t s : vtree) : Prop := exists p, subtree t p = Some s.
Lemma is_subtree_refl t : is_subtree t t.
Proof. exists []; reflexivity. Qed.
Lemma is_subtree_node l r s : is_subtree (VNode l r) s <-> s = VNode l r \/ is_subtree l s \/ is_subtree r s.
Proof.
  unfold is_subtree. split.
  - intros [p Hp]. destruct p as [|b p _] using rev_ind; [left; simpl in *; congruence|].
    rewrite subtree_app in Hp. simpl in Hp. destruct b; right; [right|left]; eauto.
  - intros [->|[[p Hp]|[p Hp]]].
    + exists []; auto.
    + exists (p ++ [false]). rewrite subtree_app. simpl. auto.
    + exists (p ++ [true]). rewrite subtree_app. simpl. auto.
Qed.
Lemma is_subtree_leaf v s : is_subtree (Leaf v) s <-> s = Leaf v.
Proof.
  unfold is_subtree. split.
  - intros [p Hp]. destruct p as [|b p _] using rev_ind; [simpl in *; congruence|].
    rewrite subtree_app in Hp. simpl in Hp. discriminate.
  - intros ->. exists []; auto.
Qed.

(** The clusters (leaf lists of subtrees) of the projection are the restricted clusters of the source. *)
Lemma project_clusters S t t' : project S t = Some t' ->
  forall c, c <> [] -> ((exists s', is_subtree t' s' /\ leaves s' = c) <->
            (exists s, is_subtree t s /\ filter (fun v => NmemB v S) (leaves s) = c)).
Proof.
  revert t'. induction t as [v|l IHl r IHr]; intros t' H c Hc; simpl in H.
  - destruct (NmemB v S) eqn:E; [|discriminate]. injection H as <-.
    setoid_rewrite is_subtree_leaf. split; intros (s & -> & <-); eexists; split; eauto; simpl; rewrite E; auto.
  - assert (forall t0, project S t0 = None -> ~ exists s, is_subtree t0 s /\ filter (fun v => NmemB v S) (leaves s) = c) as NN.
    { intros t0 H0 (s & Hs & Ec). apply Hc. rewrite <- Ec. pose proof (project_leaves S t0) as PL. rewrite H0 in PL.
      destruct Hs as [p Hp]. clear - PL Hp.
      destruct (filter (fun v => NmemB v S) (leaves s)) as [|v f] eqn:E; auto. exfalso.
      assert (In v (filter (fun v => NmemB v S) (leaves t0))) as I.
      { apply filter_In. assert (In v (filter (fun v => NmemB v S) (leaves s))) as J by (rewrite E; left; auto).
        apply filter_In in J as [J1 J2]. split; auto. eapply (nodes_leaves [] t0 p s); auto. apply nodes_root. auto. }
      rewrite PL in I. destruct I. }
    pose proof (project_leaves S (VNode l r)) as PLt. simpl in PLt.
    setoid_rewrite is_subtree_node.
    destruct (project S l) as [l'|] eqn:El; destruct (project S r) as [r'|] eqn:Er; try discriminate; injection H as <-.
    + specialize (IHl _ eq_refl c Hc). specialize (IHr _ eq_refl c Hc). setoid_rewrite is_subtree_node. split.
      * intros (s' & [->|[H|H]] & E).
        -- exists (VNode l r). split; auto. rewrite <- E. symmetry; exact PLt.
        -- destruct (proj1 IHl) as (s & Hs & Es); [eauto|]. eauto.
        -- destruct (proj1 IHr) as (s & Hs & Es); [eauto|]. eauto.
      * intros (s & [->|[H|H]] & E).
        -- exists (VNode l' r'). split; auto. rewrite <- E. exact PLt.
        -- destruct (proj2 IHl) as (s' & Hs & Es); [eauto|]. eauto.
        -- destruct (proj2 IHr) as (s' & Hs & Es); [eauto|]. eauto.
    + specialize (IHl _ eq_refl c Hc). specialize (NN r Er). rewrite IHl. split.
      * intros (s & Hs & E). eauto.
      * intros (s & [->|[H|H]] & E); eauto.
        -- exists l. split; [apply is_subtree_refl|]. rewrite <- E. simpl. rewrite filter_app.
           pose proof (project_leaves S r) as X. rewrite Er in X. rewrite X, app_nil_r. reflexivity.
        -- exfalso. apply NN. eauto.
    + specialize (IHr _ eq_refl c Hc). specialize (NN l El). rewrite IHr. split.
      * intros (s & Hs & E). eauto.
      * intros (s & [->|[H|H]] & E); eauto.
        -- exists r. split; [apply is_subtree_refl|]. rewrite <- E. simpl. rewrite filter_app.
           pose proof (project_leaves S l) as X. rewrite El in X. rewrite X. reflexivity.
        -- exfalso. apply NN. eauto.
Qed.

(** ** Variable listings *)
Lemma ltr_helper_app t acc : ltr_helper acc t = acc ++ leaves t.
Proof.
  revert acc; induction t as [v|l IHl r IHr]; intros acc; simpl; auto.
  rewrite IHl, IHr, app_assoc. reflexivity.
Qed.
Lemma ltr_leaves t : LeftToRightLeafTraverse t = leaves t.
Proof. apply ltr_helper_app. Qed.
Lemma leaf_of_nodes p t :
  flat_map (fun x : path * vtree => match snd x with Leaf v => [v] | _ => [] end) (nodes p t) = leaves t.
Proof.
  revert p; induction t as [v|l IHl r IHr]; intros p; simpl; auto.
  rewrite flat_map_app, IHl, IHr. reflexivity.
Qed.
Lemma variables_under_spec p t : exists L, VariablesUnderVtree p t = Ok L /\ Permutation L (leaves t).
Proof.
  unfold VariablesUnderVtree. destruct (serialize_vtree_spec p t) as (L & HL & PL & _ & _).
  rewrite HL. simpl. eexists; split; [reflexivity|].
  rewrite <- (leaf_of_nodes p t). apply Permutation_flat_map. exact PL.
Qed.

(** ** SubVtreeByVariables *)
Lemma helper_all p t S : (forall v, In v (leaves t) -> In v S) -> subvtree_helper p t S = Some (p, t).
Proof.
  revert p; induction t as [v|l IHl r IHr]; intros p H; simpl.
  - assert (NmemB v S = true) as -> by (apply NmemB_In, H; simpl; auto). reflexivity.
  - rewrite IHl, IHr by (intros v Hv; apply H; simpl; apply in_app_iff; auto). simpl.
    rewrite !path_eqb_refl. reflexivity.
Qed.
Lemma helper_none p t S : (forall v, In v (leaves t) -> ~ In v S) -> subvtree_helper p t S = None.
Proof.
  revert p; induction t as [v|l IHl r IHr]; intros p H; simpl.
  - assert (NmemB v S = false) as -> by (apply NmemB_false, H; simpl; auto). reflexivity.
  - rewrite IHl, IHr by (intros v Hv; apply H; simpl; apply in_app_iff; auto). reflexivity.
Qed.
Lemma helper_sound p t S q s : subvtree_helper p t S = Some (q, s) ->
  In (q, s) (nodes p t) /\ forall v, In v (leaves s) -> In v S.
Proof.
  revert p q s; induction t as [v|l IHl r IHr]; intros p q s H; simpl in H.
  - destruct (NmemB v S) eqn:E; [|discriminate]. injection H as <- <-. split; [simpl; auto|].
    simpl. intros w [<-|[]]. apply NmemB_In; auto.
  - destruct (subvtree_helper (false :: p) l S) as [[q1 s1]|] eqn:E1;
    destruct (subvtree_helper (true :: p) r S) as [[q2 s2]|] eqn:E2; simpl in H.
    + destruct (path_eqb q1 (false :: p)) eqn:F1; destruct (path_eqb q2 (true :: p)) eqn:F2; try discriminate.
      simpl in H. injection H as <- <-. apply path_eqb_true in F1, F2. subst.
      apply IHl in E1 as [A1 B1]. apply IHr in E2 as [A2 B2].
      rewrite (nodes_fun _ _ _ _ _ A1 (nodes_refl _ _)) in B1.
      rewrite (nodes_fun _ _ _ _ _ A2 (nodes_refl _ _)) in B2.
      split; [apply nodes_refl|]. intros v Hv. simpl in Hv. apply in_app_iff in Hv. destruct Hv; auto.
    + injection H as <- <-. apply IHl in E1 as [A B]. split; auto. simpl. rewrite in_app_iff; auto.
    + injection H as <- <-. apply IHr in E2 as [A B]. split; auto. simpl. rewrite in_app_iff; auto.
    + discriminate.
Qed.
Lemma helper_complete p t S q s : NoDup (leaves t) -> In (q, s) (nodes p t) ->
  (forall v, In v (leaves s) -> In v S) -> (forall v, In v S -> In v (leaves s)) ->
  subvtree_helper p t S = Some (q, s).
Proof.
  revert p; induction t as [v|l IHl r IHr]; intros p ND Hin H1 H2.
  - simpl in Hin. destruct Hin as [E|[]]. injection E as <- <-. apply helper_all; auto.
  - simpl in ND. apply NoDup_app_inv in ND as (NDl & NDr & DJ). simpl in Hin. rewrite in_app_iff in Hin.
    destruct Hin as [E|[Hin|Hin]].
    + injection E as <- <-. apply helper_all; auto.
    + simpl. rewrite (IHl (false :: p)) by auto. rewrite (helper_none (true :: p) r).
      * reflexivity.
      * intros v Hv HS. eapply DJ; [|exact Hv]. eapply nodes_leaves; eauto.
    + simpl. rewrite (helper_none (false :: p) l).
      * apply IHr; auto.
      * intros v Hv HS. eapply DJ; [exact Hv|]. eapply nodes_leaves; eauto.
Qed.

Lemma nodes_leaves_nodup p t q s : NoDup (leaves t) -> In (q, s) (nodes p t) -> NoDup (leaves s).
Proof.
  revert p; induction t as [v|l IHl r IHr]; intros p ND Hin; simpl in Hin.
  - destruct Hin as [E|[]]. injection E as <- <-. exact ND.
  - simpl in ND. pose proof ND as ND0. apply NoDup_app_inv in ND as (NDl & NDr & DJ). rewrite in_app_iff in Hin.
    destruct Hin as [E|[Hin|Hin]]; eauto. injection E as <- <-. exact ND0.
Qed.

Lemma subvtree_spec p t S : NoDup (leaves t) -> NoDup S -> S <> [] ->
  match SubVtreeByVariables p t S with
  | Some (q, s) => In (q, s) (nodes p t) /\ forall v, In v (leaves s) <-> In v S
  | None => forall q s, In (q, s) (nodes p t) -> ~ (forall v, In v (leaves s) <-> In v S)
  end.
Proof.
  intros ND NS NE. unfold SubVtreeByVariables.
  destruct (subvtree_helper p t S) as [[q s]|] eqn:E.
  - destruct (Nat.eqb (length (leaves s)) (length S)) eqn:EL.
    + apply Nat.eqb_eq in EL. apply helper_sound in E as [A B]. split; auto. intros v. split; auto.
      intros Hv. assert (incl S (leaves s)) as I; auto.
      apply NoDup_length_incl; [eapply nodes_leaves_nodup; eauto | lia | exact B].
    + intros q' s' Hin H. apply Nat.eqb_neq in EL. apply EL.
      rewrite (helper_complete p t S q' s') in E; auto; try (intros; apply H; auto).
      injection E as <- <-. apply Permutation_length. apply NoDup_Permutation; auto.
      eapply nodes_leaves_nodup; eauto.
  - intros q' s' Hin H. rewrite (helper_complete p t S q' s') in E; auto; try (intros; apply H; auto). discriminate.
Qed.

(** ** Combined statements *)
Lemma serialize_vtree_full p t : exists L, SerializeVtree p t = Ok L /\
  Permutation L (nodes p t) /\ NoDup (map fst L) /\
  (exists L', L = (p, t) :: L') /\
  (forall L1 x L2, L = L1 ++ x :: L2 -> forall c, In c (kids x) -> In c L2).
Proof.
  destruct (serialize_vtree_spec p t) as (L & H1 & H2 & H3 & H4). exists L. repeat split; auto.
  eapply ser_nodup; eauto.
Qed.
Lemma existsb_path q (l : list path) : existsb (path_eqb q) l = true <-> In q l.
Proof.
  rewrite existsb_exists. split.
  - intros (x & Hx & E). apply path_eqb_true in E. subst; auto.
  - intros H. exists q. split; auto. apply path_eqb_refl.
Qed.
Lemma copy_vtree_identical d p t : exists d', CopyVtree d p t = Ok (t, d') /\
  (forall q, In q (map fst (nodes p t)) -> d' q = None) /\
  (forall q, ~ In q (map fst (nodes p t)) -> d' q = d q).
Proof.
  destruct (copy_vtree_spec Some d p t) as (t' & d' & H1 & H2 & H3); [intros v _; discriminate|].
  rewrite rename_id in H2. injection H2 as <-. exists d'. split; [exact H1|].
  split; intros q Hq; rewrite H3; destruct (existsb (path_eqb q) (map fst (nodes p t))) eqn:E; auto.
  - apply existsb_path in Hq. congruence.
  - apply existsb_path in E. contradiction.
Qed.
Lemma copy_vtree_aborts rename d p t v : In v (leaves t) -> rename v = None ->
  CopyVtreeMap rename d p t = Abort.
Proof.
  intros Hv HN. unfold CopyVtreeMap. destruct (serialize_vtree_spec p t) as (L & HL & PL & _ & TL).
  rewrite HL. simpl.
  assert (forall M d, (forall x c, In x M -> In c (kids x) ->
             (exists M1 M2, M = M1 ++ x :: M2 /\ In c M1) \/ d (fst c) <> None) ->
           NoDup (map fst M) ->
           (forall x y c, In x M -> In y M -> x <> y -> In c (kids x) -> In c (kids y) -> False) ->
           (exists q, In (q, Leaf v) M) -> foldM (copy_step rename) M d = Abort) as X.
  { clear - HN. induction M as [|x M IH]; intros d HK ND HD [q Hq]; [contradiction|]. simpl.
    destruct x as [q0 s0]. destruct s0 as [w|l r]; simpl.
    - destruct (rename w) as [w'|] eqn:E; [|reflexivity]. simpl. apply IH.
      + intros x c Hx Hc. destruct (HK x c (or_intror Hx) Hc) as [(M1 & M2 & E2 & I)|I].
        * destruct M1 as [|y M1]; [contradiction|]. simpl in E2. injection E2 as <- E2.
          destruct I as [I|I]; [|left; eauto]. right. subst c. unfold set_data; simpl. rewrite path_eqb_refl. discriminate.
        * right. unfold set_data. destruct (path_eqb (fst c) q0); [discriminate|auto].
      + inversion ND; auto.
      + intros x y c Hx Hy. apply HD; right; auto.
      + exists q. destruct Hq as [E3|Hq]; auto. injection E3 as <- <-. congruence.
    - destruct (HK (q0, VNode l r) (false :: q0, l) (or_introl eq_refl) (or_introl eq_refl)) as [(M1 & M2 & E2 & I)|I].
      { destruct M1 as [|y M1]; [contradiction|]. simpl in E2. injection E2 as <- E2. exfalso.
        inversion ND as [|? ? N1 N2]; subst. apply N1. simpl. rewrite map_app. apply in_app_iff. right; left; reflexivity. }
      destruct (HK (q0, VNode l r) (true :: q0, r) (or_introl eq_refl) (or_intror (or_introl eq_refl))) as [(M1 & M2 & E2 & I2)|I2].
      { destruct M1 as [|y M1]; [contradiction|]. simpl in E2. injection E2 as <- E2. exfalso.
        inversion ND as [|? ? N1 N2]; subst. apply N1. simpl. rewrite map_app. apply in_app_iff. right; left; reflexivity. }
      simpl in I, I2. destruct (d (false :: q0)) as [dl|]; [|congruence]. destruct (d (true :: q0)) as [dr|]; [|congruence]. simpl.
      apply IH.
      + intros x c Hx Hc. destruct (HK x c (or_intror Hx) Hc) as [(M1 & M2 & E2 & J)|J].
        * destruct M1 as [|y M1]; [contradiction|]. simpl in E2. injection E2 as <- E2.
          destruct J as [J|J]; [|left; eauto]. right. subst c. unfold set_data; simpl. rewrite path_eqb_refl. discriminate.
        * right. unfold set_data. destruct (path_eqb (fst c) q0) eqn:E0; [discriminate|].
          assert (x <> (q0, VNode l r)) as NX.
          { intros ->. inversion ND as [|? ? N1 N2]; subst. apply N1. simpl. apply in_map_iff. exists (q0, VNode l r); auto. }
          assert (forall b, fst c <> b :: q0) as NB.
          { intros b Eb. destruct x as [qx sx]. destruct sx as [wx|lx rx]; [contradiction|].
            simpl in Hc. destruct Hc as [<-|[<-|[]]]; simpl in Eb; injection Eb as Eb1 Eb2; subst qx;
            inversion ND as [|? ? N1 N2]; subst; apply N1; simpl; apply in_map_iff; (eexists; split; [|exact Hx]); reflexivity. }
          destruct (path_eqb (fst c) (true :: q0)) eqn:E1; [apply path_eqb_true in E1; exfalso; eapply NB; eauto|].
          destruct (path_eqb (fst c) (false :: q0)) eqn:E2; [apply path_eqb_true in E2; exfalso; eapply NB; eauto|]. exact J.
      + inversion ND; auto.
      + intros x y c Hx Hy. apply HD; right; auto.
      + exists q. destruct Hq as [E3|Hq]; auto. discriminate. }
  rewrite X; [reflexivity| | | |].
  - intros x c Hx Hc. left. apply in_rev in Hx. apply in_split in Hx as (L1 & L2 & E).
    exists (rev L2), (rev L1). split; [rewrite E, rev_app_distr; simpl; rewrite <- app_assoc; reflexivity|].
    apply in_rev. rewrite rev_involutive. eapply TL; eauto.
  - rewrite map_rev. apply NoDup_rev. eapply ser_nodup; eauto.
  - intros [q1 s1] [q2 s2] c Hx Hy NE Hc1 Hc2. 
    assert (q1 = q2) as ->.
    { destruct s1, s2; simpl in *; try contradiction.
      destruct Hc1 as [<-|[<-|[]]], Hc2 as [E|[E|[]]]; congruence. }
    apply NE. f_equal. apply in_rev in Hx, Hy.
    apply (Permutation_in _ PL) in Hx, Hy. eapply nodes_fun; eauto.
  - clear HL TL X. assert (exists q, In (q, Leaf v) (nodes p t)) as [q Hq].
    { clear - Hv. revert p. induction t as [w|l IHl r IHr]; intros p; simpl in *.
      - destruct Hv as [->|[]]. exists p; auto.
      - apply in_app_iff in Hv. destruct Hv as [Hv|Hv].
        + destruct (IHl Hv (false :: p)) as [q Hq]. exists q. right. apply in_app_iff; auto.
        + destruct (IHr Hv (true :: p)) as [q Hq]. exists q. right. apply in_app_iff; auto. }
    exists q. apply -> in_rev. apply (Permutation_in _ (Permutation_sym PL)). exact Hq.
Qed.
Lemma project_vtree_full S d p t : (exists v, In v (leaves t) /\ In v S) ->
  exists t' d', ProjectVtree S d p t = Ok (t', d') /\
    leaves t' = filter (fun v => NmemB v S) (leaves t) /\
    (forall c, c <> [] -> ((exists s', is_subtree t' s' /\ leaves s' = c) <->
                           (exists s, is_subtree t s /\ filter (fun v => NmemB v S) (leaves s) = c))) /\
    (forall q, d' q = if existsb (path_eqb q) (map fst (nodes p t)) then None else d q).
Proof.
  intros (v & Hv & HS). destruct (project_vtree_eq S d p t) as (d' & H1 & H2).
  pose proof (project_leaves S t) as PL. destruct (project S t) as [t'|] eqn:E.
  - exists t', d'. repeat split; auto; intros.
    + apply (project_clusters S t t' E c H); auto.
    + apply (project_clusters S t t' E c H); auto.
  - exfalso. assert (In v (filter (fun v => NmemB v S) (leaves t))) as I.
    { apply filter_In. split; auto. apply NmemB_In; auto. }
    rewrite PL in I. contradiction.
Qed.
Lemma project_vtree_ub S d p t : (forall v, In v (leaves t) -> ~ In v S) -> ProjectVtree S d p t = UB.
Proof.
  intros H. destruct (project_vtree_eq S d p t) as (d' & H1 & _). rewrite H1.
  pose proof (project_leaves S t) as PL. destruct (project S t) as [t'|]; [|reflexivity].
  exfalso. pose proof (leaves_nonempty t') as N. destruct (leaves t') as [|v l]; [congruence|].
  assert (In v (filter (fun v => NmemB v S) (leaves t))) as I by (rewrite <- PL; left; auto).
  apply filter_In in I as [I1 I2]. apply NmemB_In in I2. eapply H; eauto.
Qed.
Lemma variable_listings p t : exists L, VariablesUnderVtree p t = Ok L /\
  LeftToRightLeafTraverse t = leaves t /\ Permutation L (LeftToRightLeafTraverse t).
Proof.
  destruct (variables_under_spec p t) as (L & H1 & H2). exists L. rewrite ltr_leaves. auto.
Qed.
