(** The queries of psdd_node.cpp compute the tree-level functions (C17-C23, C31). *)
From Coq Require Import Reals Lra.
From Verif Require Import Base Param Vtree VtreeProofs Spec SpecProofs Heap Manager HeapProofs SerProofs RepProofs LoadProofs
  MulProofs TreeProofs Query.

Lemma set_at_same {A} (c : nat -> A) i a : set_at c i a i = a.
Proof. unfold set_at. rewrite Nat.eqb_refl. reflexivity. Qed.
Lemma set_at_other {A} (c : nat -> A) i a j : j <> i -> set_at c i a j = c j.
Proof. unfold set_at. intros H. apply Nat.eqb_neq in H. rewrite H. reflexivity. Qed.
Lemma vset_same {A} (c : N -> A) i a : vset c i a i = a.
Proof. unfold vset. rewrite N.eqb_refl. reflexivity. Qed.
Lemma vset_other {A} (c : N -> A) i a j : j <> i -> vset c i a j = c j.
Proof. unfold vset. intros H. apply N.eqb_neq in H. rewrite H. reflexivity. Qed.

Section Query.
Context {P : pops} (val : P -> R) (HP : parith P val).
Notation heap := (heap P). Notation mgr := (mgr P). Notation node := (node P).
Notation Rep := (Rep val).
Context (vroot : vtree) (h : heap) (HO : heap_ok vroot h) (root : nat) (L : list nat) (SO : ser_of h root L).

Lemma ser_lt i : In i L -> i < length h.
Proof.
  intros Hi. apply (so_in _ _ _ SO) in Hi.
  destruct (so_head _ _ _ SO) as [l El].
  assert (root < length h) as HR.
  { destruct (nth_error h root) as [nd|] eqn:E; [apply nth_error_Some; congruence|].
    exfalso. pose proof (so_eq _ _ _ SO) as Q. unfold SerializePsddNodes in Q. simpl in Q.
    rewrite E in Q. discriminate. }
  pose proof (reach_le _ _ _ _ HO Hi). lia.
Qed.
Lemma ser_child L1 i L2 nd c : L = L1 ++ i :: L2 -> nth_error h i = Some nd -> In c (children nd) -> In c L2.
Proof. intros EL En Hc. eapply (so_topo _ _ _ SO); eauto. Qed.
Lemma ser_elem L1 i L2 nd es e : L = L1 ++ i :: L2 -> nth_error h i = Some nd -> n_body nd = BDec es -> In e es -> In (e_prime e) L2 /\ In (e_sub e) L2.
Proof. intros EL En Eb He. split; eapply ser_child; eauto; apply in_children; eauto 10. Qed.

(** ** Cached bottom-up computation *)
Definition elem_rel {X} (Q : X -> ptree -> Prop) (c : nat -> X) (e : elem P) (te : telem) : Prop :=
  Q (c (e_prime e)) (tp te) /\ Q (c (e_sub e)) (ts te) /\ tw te = val (e_param e).
Definition node_fun_ok {X} (Q : X -> ptree -> Prop) (f : (nat -> X) -> node -> X) : Prop :=
  (forall c nd l, n_body nd = BLit l -> Q (f c nd) (TLit l)) /\
  (forall c nd v pt pf, n_body nd = BTop v pt pf -> Q (f c nd) (TTop v (val pt) (val pf))) /\
  (forall c nd es tes, n_body nd = BDec es -> Forall2 (elem_rel Q c) es tes -> Q (f c nd) (TDec tes)).
Lemma node_fun_at {X} (Q : X -> ptree -> Prop) f c L1 i L2 nd t : node_fun_ok Q f -> L = L1 ++ i :: L2 -> nth_error h i = Some nd ->
  (forall j t, In j L2 -> Rep h j t -> Q (c j) t) -> Rep h i t -> Q (f c nd) t.
Proof.
  intros (F1 & F2 & F3) EL En IH HR. pose proof (fun es e => ser_elem L1 i L2 nd es e EL En) as SE. clear EL. inversion HR as [j nd' l E1 E2|j nd' v pt pf E1 E2|j nd' es tes E1 E2 E3]; subst; rewrite En in E1; injection E1 as <-.
  - apply F1; auto.
  - apply F2; auto.
  - apply (F3 c nd es tes); auto. eapply Forall2_impl_in; [|exact E3]. intros e te He Hte (A & B & C).
    destruct (SE _ _ E2 He). split; auto.
Qed.
Lemma cached_spec {X} (Q : X -> ptree -> Prop) (f : (nat -> X) -> node -> X) c0 : node_fun_ok Q f ->
  exists c, foldM (fun c i => do nd <- node_of h i ;; Ok (set_at c i (f c nd))) (rev L) c0 = Ok c /\
    (forall i t, In i L -> Rep h i t -> Q (c i) t) /\ (forall i, ~ In i L -> c i = c0 i).
Proof.
  intros F.
  apply (bottom_up _ (fun L2 c => (forall i t, In i L2 -> Rep h i t -> Q (c i) t) /\ (forall i, ~ In i L2 -> c i = c0 i)) L c0).
  - intros L1 i L2 c EL [IH U].
    assert (i < length h) as Hi by (apply ser_lt; rewrite EL; apply in_app_iff; right; left; auto).
    apply nth_error_Some in Hi. destruct (nth_error h i) as [nd|] eqn:En; [|congruence].
    exists (set_at c i (f c nd)). unfold node_of. rewrite En. cbn [get bind]. split; auto. split.
    + intros j t Hj HR. destruct (Nat.eq_dec j i) as [->|Nji].
      * rewrite set_at_same. eapply node_fun_at; eauto.
      * rewrite set_at_other by auto. destruct Hj as [->|Hj]; [congruence|]. auto.
    + intros j Hj. rewrite set_at_other; [|intros ->; apply Hj; left; auto]. apply U. intros G. apply Hj. right; auto.
  - split; [intros i t []|auto].
Qed.
(** the variant that only sets flags *)
Lemma flagged_spec (Q : bool -> ptree -> Prop) (f : (nat -> bool) -> node -> bool) c0 : node_fun_ok Q f -> (forall i, In i L -> c0 i = false) ->
  exists c, foldM (fun c i => do nd <- node_of h i ;; Ok (if f c nd then set_at c i true else c)) (rev L) c0 = Ok c /\
    (forall i t, In i L -> Rep h i t -> Q (c i) t) /\ (forall i, ~ In i L -> c i = c0 i).
Proof.
  intros F Z.
  apply (bottom_up _ (fun L2 c => (forall i t, In i L2 -> Rep h i t -> Q (c i) t) /\ (forall i, ~ In i L2 -> c i = c0 i)) L c0).
  - intros L1 i L2 c EL [IH U].
    assert (In i L) as HiL by (rewrite EL; apply in_app_iff; right; left; auto).
    assert (~ In i L2) as NI.
    { pose proof (so_nodup _ _ _ SO) as ND. rewrite EL in ND. apply NoDup_app_inv in ND as (_ & ND & _). inversion ND; auto. }
    assert (i < length h) as Hi by (apply ser_lt; auto).
    apply nth_error_Some in Hi. destruct (nth_error h i) as [nd|] eqn:En; [|congruence].
    exists (if f c nd then set_at c i true else c). unfold node_of. rewrite En. cbn [get bind]. split; auto.
    assert (forall j, (if f c nd then set_at c i true else c) j = set_at c i (f c nd) j) as K.
    { intros j. destruct (f c nd) eqn:E; auto. destruct (Nat.eq_dec j i) as [->|Nji].
      - rewrite set_at_same, U, Z; auto.
      - rewrite set_at_other; auto. }
    split.
    + intros j t Hj HR. rewrite K. destruct (Nat.eq_dec j i) as [->|Nji].
      * rewrite set_at_same. eapply node_fun_at; eauto.
      * rewrite set_at_other by auto. destruct Hj as [->|Hj]; [congruence|]. auto.
    + intros j Hj. rewrite K, set_at_other; [|intros ->; apply Hj; left; auto]. apply U. intros G. apply Hj. right; auto.
  - split; [intros i t []|auto].
Qed.
Lemma front_root : front L = Ok root.
Proof. destruct (so_head _ _ _ SO) as [l ->]. reflexivity. Qed.
Lemma root_in : In root L.
Proof. destruct (so_head _ _ _ SO) as [l ->]. left; auto. Qed.

(** ** Evaluate *)
Lemma eval_fun_ok mask x : node_fun_ok (fun v t => val v = tev mask x t) (eval_node mask x).
Proof.
  split; [|split]; intros c nd.
  - intros l E. unfold eval_node. rewrite E. simpl. unfold lit_sat, lit_var, lit_sign.
    destruct (mask (Z.abs_N l)); [destruct (Bool.eqb _ _)|]; rewrite ?(val_one HP), ?(val_zero HP); reflexivity.
  - intros v pt pf E. unfold eval_node. rewrite E. simpl. destruct (mask v); [destruct (x v)|]; rewrite ?(val_one HP); reflexivity.
  - intros es tes E F. unfold eval_node. rewrite E. cbn [tev].
    assert (forall acc, val (fold_left (fun acc e => padd acc (pmul (pmul (c (e_prime e)) (c (e_sub e))) (e_param e))) es acc) =
      (val acc + rsum (fun e => tev mask x (fst (fst e)) * tev mask x (snd (fst e)) * snd e) tes)%R) as K.
    { clear E. induction F as [|e te es tes (A & B & C) F IH]; intros acc; simpl; [lra|]. rewrite IH, (val_add HP), !(val_mul HP), A, B, <- C.
      unfold tp, ts, tw. lra. }
    rewrite K, (val_zero HP). lra.
Qed.
Lemma evaluate_spec mask x t : Rep h root t -> exists v, EvaluateNodes h mask x L = Ok v /\ val v = tev mask x t.
Proof.
  intros HR. destruct (cached_spec _ (eval_node mask x) (fun _ => pzero) (eval_fun_ok mask x)) as (c & E & H & _).
  exists (c root). unfold EvaluateNodes. unfold eval_step. rewrite E, front_root. split; [reflexivity|]. apply H; auto. apply root_in.
Qed.

(** ** Activation flags *)
Lemma Forall2_existsb {A B} (f : A -> bool) (g : B -> bool) l1 l2 : Forall2 (fun a b => f a = g b) l1 l2 -> existsb f l1 = existsb g l2.
Proof. induction 1; simpl; congruence. Qed.
Lemma cons_fun_ok mask e : node_fun_ok (fun b t => b = tcons mask e t) (cons_node (P := P) mask e).
Proof.
  split; [|split]; intros c nd.
  - intros l E. unfold cons_node. rewrite E. simpl. unfold lit_sat, lit_var, lit_sign. reflexivity.
  - intros v pt pf E. unfold cons_node. rewrite E. reflexivity.
  - intros es tes E F. unfold cons_node. rewrite E. cbn [tcons]. apply Forall2_existsb. eapply Forall2_impl_in; [|exact F].
    intros a b _ _ (A & B & _). rewrite A, B. reflexivity.
Qed.
Lemma flag_fun_ok e : node_fun_ok (fun b t => b = base t e) (flag_node (P := P) e).
Proof.
  split; [|split]; intros c nd.
  - intros l E. unfold flag_node. rewrite E. simpl. unfold lit_sat, lit_var, lit_sign. reflexivity.
  - intros v pt pf E. unfold flag_node. rewrite E. reflexivity.
  - intros es tes E F. unfold flag_node. rewrite E. cbn [base]. apply Forall2_existsb. eapply Forall2_impl_in; [|exact F].
    intros a b _ _ (A & B & _). rewrite A, B. reflexivity.
Qed.
Lemma reset_spec l : forall f : nat -> bool, (forall i, In i l -> fold_left (fun f i => set_at f i false) l f i = false) /\
  (forall i, ~ In i l -> fold_left (fun f i => set_at f i false) l f i = f i).
Proof.
  induction l as [|a l IH]; intros f; simpl; [split; [intros i []|auto]|]. destruct (IH (set_at f a false)) as [A B]. split.
  - intros i [->|Hi]; auto. destruct (in_dec Nat.eq_dec i l); auto. rewrite B by auto. apply set_at_same.
  - intros i Hi. rewrite B by tauto. apply set_at_other. intros ->. tauto.
Qed.
Lemma consistent_spec mask e f t : Rep h root t -> (forall i, In i L -> f i = false) ->
  exists f', IsConsistentNodes h mask e L f = Ok (tcons mask e t, f') /\ (forall i, f' i = f i).
Proof.
  intros HR Z. destruct (flagged_spec _ (cons_node mask e) f (cons_fun_ok mask e) Z) as (c & E & H & U).
  unfold IsConsistentNodes. unfold cons_step. rewrite E, front_root. cbn [bind].
  rewrite (H root t root_in HR). eexists. split; [reflexivity|]. intros i. destruct (reset_spec L c) as [A B].
  destruct (in_dec Nat.eq_dec i L) as [Hi|Hi]; [rewrite A, Z; auto|]. rewrite B, U; auto.
Qed.
Lemma set_flag_spec e f : (forall i, In i L -> f i = false) ->
  exists f', SetActivationFlag h e L f = Ok f' /\ (forall i t, In i L -> Rep h i t -> f' i = base t e) /\ (forall i, ~ In i L -> f' i = f i).
Proof. intros Z. apply (flagged_spec _ (flag_node e) f (flag_fun_ok e) Z). Qed.

(** ** ModelCount *)
Lemma count_fun_ok : node_fun_ok (fun n t => n = tcount t) (count_node (P := P)).
Proof.
  split; [|split]; intros c nd.
  - intros l E. unfold count_node. rewrite E. reflexivity.
  - intros v pt pf E. unfold count_node. rewrite E. reflexivity.
  - intros es tes E F. unfold count_node. rewrite E. cbn [tcount].
    assert (forall acc, fold_left (fun acc e => (acc + c (e_prime e) * c (e_sub e))%N) es acc = (acc + nsum (fun e : telem => tcount (fst (fst e)) * tcount (snd (fst e))) tes)%N) as K.
    { clear E. induction F as [|e te es tes (A & B & C) F IH]; intros acc; cbn [fold_left nsum fold_right]; [lia|]. rewrite IH, A, B. unfold tp, ts, nsum. lia. }
    apply K.
Qed.
Lemma model_count_spec t : Rep h root t -> ModelCount h L = Ok (tcount t).
Proof.
  intros HR. destruct (cached_spec _ (count_node (P := P)) (fun _ => 0%N) count_fun_ok) as (c & E & H & _).
  unfold ModelCount. unfold count_step. rewrite E, front_root. cbn [bind]. f_equal. apply H; auto. apply root_in.
Qed.
End Query.

(** ** The recursive IsConsistent methods *)
Section Method.
Context {P : pops} (val : P -> R).
Notation Rep := (Rep val).
Definition ev_mask (ev : evidence) : inst := fun v => match ev v with Some _ => true | None => false end.
Definition ev_val (ev : evidence) : inst := fun v => match ev v with Some b => b | None => false end.
Lemma method_spec (h : heap P) ev t : forall i fuel, (exists root, heap_ok root h) -> Rep h i t -> i < fuel -> node_consistent fuel h ev i = Ok (tcons (ev_mask ev) (ev_val ev) t).
Proof.
  induction t as [l|v a b|tes IH] using ptree_ind2; intros i fuel HO HR Hf; destruct fuel as [|fuel]; try lia; cbn [node_consistent]; unfold node_of.
  - apply Rep_lit_inv in HR as (nd & -> & E). cbn [get bind]. rewrite E. simpl. unfold ev_mask, ev_val, lit_sat, lit_var, lit_sign.
    destruct (ev (Z.abs_N l)); reflexivity.
  - apply Rep_top_inv in HR as (nd & pt & pf & -> & E & _). cbn [get bind]. rewrite E. reflexivity.
  - apply Rep_dec_inv in HR as (nd & es & En & E & F). rewrite En. cbn [get bind]. rewrite E.
    assert (forall e, In e es -> e_prime e < fuel /\ e_sub e < fuel) as LT.
    { intros e He. destruct HO as [root HO]. specialize (HO _ _ En). unfold node_ok in HO. rewrite E in HO. destruct HO as (_ & _ & FA).
      rewrite Forall_forall in FA. destruct (FA e He) as (A & B & _). lia. }
    clear En E Hf. induction F as [|e te es tes (A & B & C) F IHF]; [reflexivity|]. inversion IH as [|? ? [I1 I2] IH']; subst. cbn [tcons existsb].
    destruct (LT e (or_introl eq_refl)). rewrite (I1 _ fuel HO A) by auto. cbn [bind]. fold (tp te) (ts te).
    destruct (tcons (ev_mask ev) (ev_val ev) (tp te)); cbn [andb orb].
    + rewrite (I2 _ fuel HO B) by auto. cbn [bind]. destruct (tcons (ev_mask ev) (ev_val ev) (ts te)); auto.
      apply IHF; auto. intros; apply LT; right; auto.
    + apply IHF; auto. intros; apply LT; right; auto.
Qed.
End Method.
