(** Parameter learning (C32): values, contexts and counts. *)
From Coq Require Import Reals Lra.
From Verif Require Import Base Param Vtree VtreeProofs Spec SpecProofs Heap Manager HeapProofs SerProofs RepProofs LoadProofs
  MulProofs ReplayProofs TreeProofs Query QueryProofs MpeProofs SampleProofs Learn LearnProofs.
Local Open Scope R_scope.

(** ** Specification *)
(** the number of entries of a list with a property *)
Inductive ncount {A} (Q : A -> Prop) : list A -> N -> Prop :=
| nc_nil : ncount Q [] 0
| nc_yes x l n : Q x -> ncount Q l n -> ncount Q (x :: l) (N.succ n)
| nc_no x l n : ~ Q x -> ncount Q l n -> ncount Q (x :: l) n.
Lemma ncount_ext {A} (Q Q' : A -> Prop) l n : (forall x, In x l -> (Q x <-> Q' x)) -> ncount Q l n -> ncount Q' l n.
Proof.
  intros H K. induction K; constructor; try (apply IHK; intros; apply H; right; auto).
  - apply H; [left; auto|auto].
  - rewrite <- H; [auto|left; auto].
Qed.
Lemma ncount_fun {A} (Q : A -> Prop) l n : ncount Q l n -> forall n', ncount Q l n' -> n = n'.
Proof. induction 1; intros n' K; inversion K; subst; auto; try contradiction. f_equal; auto. Qed.

Section Count.
Context {P : pops} (val : P -> R) (HP : pexact P val).
Notation heap := (heap P). Notation mgr := (mgr P). Notation node := (node P).
Notation Rep := (Rep val).

(** [sat h i x]: the instantiation satisfies the base of node [i] *)
Definition sat (h : heap) (i : nat) (x : inst) : Prop := exists t, Rep h i t /\ base t x = true.
(** [hits h root x i]: the instantiation reaches node [i], going from the root down through elements whose prime and sub it satisfies *)
Inductive hits (h : heap) (root : nat) (x : inst) : nat -> Prop :=
| hits_root : hits h root x root
| hits_elem p nd es e c : hits h root x p -> nth_error h p = Some nd -> n_body nd = BDec es -> In e es ->
    sat h (e_prime e) x -> sat h (e_sub e) x -> c = e_prime e \/ c = e_sub e -> hits h root x c.
(** numbers of records for the parameters of a node *)
Definition node_counts (h : heap) (root : nat) (recs : list inst) (i : nat) (nd : node) (ns : list N) : Prop :=
  match n_body nd with
  | BLit _ => ns = []
  | BTop v _ _ => exists a b, ns = [a; b] /\ ncount (fun x => hits h root x i /\ x v = true) recs a /\
                                ncount (fun x => hits h root x i /\ x v = false) recs b
  | BDec es => Forall2 (fun e n => ncount (fun x => hits h root x i /\ sat h (e_prime e) x /\ sat h (e_sub e) x) recs n) es ns
  end.
Definition rn (n : N) : R := IZR (Z.of_N n).
(** (n_e + alpha) / sum of (n_e' + alpha) *)
Definition freqs (alpha : R) (ns : list N) : list R := map (fun n => (rn n + alpha) / rsum (fun k => rn k + alpha) ns) ns.

(** ** Batches *)
Lemma or_and_map (recs : list inst) f g k : or_and (map f recs) (map g recs) (map k recs) = Ok (map (fun x => f x || (g x && k x)) recs).
Proof. induction recs as [|x l IH]; auto. cbn [map or_and]. rewrite IH. reflexivity. Qed.
Lemma hit_map (recs : list inst) f g k : hit_list (map f recs) (map g recs) (map k recs) = Ok (map (fun x => f x && g x && k x) recs).
Proof. induction recs as [|x l IH]; auto. cbn [map hit_list]. rewrite IH. reflexivity. Qed.
Lemma mark_map (recs : list inst) f g : mark (map f recs) (map g recs) = Ok (map (fun x => f x || g x) recs).
Proof. induction recs as [|x l IH]; auto. cbn [map mark]. rewrite IH. reflexivity. Qed.
Lemma trues_map (recs : list inst) f : ncount (fun x => f x = true) recs (trues (map f recs)).
Proof.
  unfold trues. induction recs as [|x l IH]; [constructor|]. cbn [map filter]. destruct (f x) eqn:E.
  - cbn [length]. rewrite Nat2N.inj_succ. constructor; auto.
  - constructor; [congruence|auto].
Qed.
Lemma count_top_map (recs : list inst) f v : exists a b, count_top (map f recs) (map (fun x => x v) recs) = Ok (a, b) /\
  ncount (fun x => f x = true /\ x v = true) recs a /\ ncount (fun x => f x = true /\ x v = false) recs b.
Proof.
  induction recs as [|x l (a & b & E & A & B)]; [exists 0%N, 0%N; repeat split; constructor|]. cbn [map count_top]. rewrite E. cbn [bind].
  destruct (f x) eqn:Ef, (x v) eqn:Ev; do 2 eexists; (split; [reflexivity|]); split; constructor; auto; intros [? ?]; congruence.
Qed.
Lemma repeat_map {A B} (b : B) (l : list A) : repeat b (length l) = map (fun _ => b) l.
Proof. induction l; simpl; congruence. Qed.

(** ** First pass *)
Section Pass.
Context (vroot : vtree) (h : heap) (HO : heap_ok vroot h) (root : nat) (L : list nat) (SO : ser_of h root L).
Context (T : nat -> ptree) (HT : forall i, (i < length h)%nat -> Rep h i (T i)).
Context (recs : list inst) (ex : examples).
Definition node_var (nd : node) : option N := match n_body nd with BLit l => Some (lit_var l) | BTop v _ _ => Some v | _ => None end.
Context (HX : forall i nd v, In i L -> nth_error h i = Some nd -> node_var nd = Some v -> ex v = Some (map (fun x => x v) recs)).

Lemma sat_T i x : (i < length h)%nat -> (sat h i x <-> base (T i) x = true).
Proof.
  intros Hi. split; [|intros E; exists (T i); auto]. intros (t & HR & E). rewrite (Rep_fun val h _ _ _ (HT i Hi) HR). exact E.
Qed.
Lemma value_dec vals es : (forall e, In e es -> vals (e_prime e) = map (base (T (e_prime e))) recs /\ vals (e_sub e) = map (base (T (e_sub e))) recs) ->
  forall f, foldM (fun acc (e : elem P) => or_and acc (vals (e_prime e)) (vals (e_sub e))) es (map f recs) =
    Ok (map (fun x => f x || existsb (fun e => base (T (e_prime e)) x && base (T (e_sub e)) x) es) recs).
Proof.
  induction es as [|e es IH]; intros H f; cbn [foldM existsb].
  - f_equal. apply map_ext. intros x. rewrite orb_false_r. auto.
  - destruct (H e (or_introl eq_refl)) as [-> ->]. rewrite or_and_map. cbn [bind]. rewrite IH by (intros; apply H; right; auto).
    f_equal. apply map_ext. intros x. rewrite orb_assoc. auto.
Qed.
Lemma T_dec i nd es x : nth_error h i = Some nd -> n_body nd = BDec es ->
  base (T i) x = existsb (fun e => base (T (e_prime e)) x && base (T (e_sub e)) x) es.
Proof.
  intros En Eb. assert (i < length h)%nat as Hi by (apply nth_error_Some; congruence). pose proof (HT i Hi) as HR.
  destruct (T i) as [l|v a b|tes]; [apply Rep_lit_inv in HR as (nd' & E1 & E2); congruence|apply Rep_top_inv in HR as (nd' & ? & ? & E1 & E2 & _); congruence|].
  apply Rep_dec_inv in HR as (nd' & es' & E1 & E2 & H2). assert (nd' = nd) as -> by congruence. rewrite Eb in E2. injection E2 as <-.
  rewrite base_dec. pose proof (HO _ _ En) as NO. unfold node_ok in NO. rewrite Eb in NO. destruct NO as (_ & _ & FE).
  clear - H2 FE Hi HT. induction H2 as [|e te es tes (A & B & _) F IH]; auto. inversion FE as [|? ? (Q1 & Q2 & _) FE']; subst. cbn [existsb].
  rewrite IH by auto. rewrite (Rep_fun val h _ _ _ (HT (e_prime e) ltac:(lia)) A), (Rep_fun val h _ _ _ (HT (e_sub e) ltac:(lia)) B). reflexivity.
Qed.
Lemma T_lit i nd l : nth_error h i = Some nd -> n_body nd = BLit l -> T i = TLit l.
Proof.
  intros En Eb. assert (i < length h)%nat as Hi by (apply nth_error_Some; congruence). pose proof (HT i Hi) as HR.
  destruct (T i) as [l'|v a b|tes]; [apply Rep_lit_inv in HR as (nd' & E1 & E2)|apply Rep_top_inv in HR as (nd' & ? & ? & E1 & E2 & _)|apply Rep_dec_inv in HR as (nd' & es' & E1 & E2 & H2)]; congruence.
Qed.
Lemma T_top i nd v pt pf : nth_error h i = Some nd -> n_body nd = BTop v pt pf -> exists a b, T i = TTop v a b.
Proof.
  intros En Eb. assert (i < length h)%nat as Hi by (apply nth_error_Some; congruence). pose proof (HT i Hi) as HR.
  destruct (T i) as [l'|v' a b|tes]; [apply Rep_lit_inv in HR as (nd' & E1 & E2)|apply Rep_top_inv in HR as (nd' & ? & ? & E1 & E2 & _)|apply Rep_dec_inv in HR as (nd' & es' & E1 & E2 & H2)]; try congruence.
  assert (v' = v) as -> by congruence. eauto.
Qed.
Lemma value_pass : exists vals ctxs, foldM (value_step h ex (length recs)) (rev L) (fun _ => [], fun _ => []) = Ok (vals, ctxs) /\
  forall i, In i L -> vals i = map (base (T i)) recs /\ ctxs i = map (fun _ => false) recs.
Proof.
  destruct (bottom_up (value_step h ex (length recs)) (fun L2 st => forall i, In i L2 -> fst st i = map (base (T i)) recs /\ snd st i = map (fun _ => false) recs) L
    (fun _ => [], fun _ => [])) as ([vals ctxs] & E & K); [|intros i []|].
  - intros L1 i L2 [vals ctxs] EL K. cbn [fst snd] in K.
    pose proof (ser_lt vroot h HO root L SO i ltac:(rewrite EL; apply in_elt)) as Hi.
    pose proof Hi as Hi'. apply nth_error_Some in Hi'. destruct (nth_error h i) as [nd|] eqn:En; [|congruence]. clear Hi'.
    assert (value_node ex (length recs) vals nd = Ok (map (base (T i)) recs)) as E.
    { pose proof (T_lit i nd) as TL. pose proof (T_top i nd) as TT. unfold value_node. destruct (n_body nd) as [l|v pt pf|es] eqn:Eb.
      - rewrite (HX i nd (lit_var l)); [|rewrite EL; apply in_elt|auto|unfold node_var; rewrite Eb; auto].
        rewrite map_length, Nat.eqb_refl. cbn [Base.assert bind]. rewrite (TL l En eq_refl).
        f_equal. unfold lit_sign. cbn [base]. unfold lit_sat, lit_var. destruct (0 <? l)%Z.
        + apply map_ext. intros x. destruct (x (Z.abs_N l)); auto.
        + rewrite map_map. apply map_ext. intros x. destruct (x (Z.abs_N l)); auto.
      - rewrite repeat_map. f_equal. apply map_ext. intros x. destruct (TT v pt pf En eq_refl) as (a & b & ->). reflexivity.
      - rewrite repeat_map, value_dec.
        + f_equal. apply map_ext. intros x. cbn [orb]. symmetry. eapply T_dec; eauto.
        + intros e He. destruct (ser_elem h root L SO L1 i L2 nd es e EL En Eb He) as [C1 C2]. split; [apply (K _ C1)|apply (K _ C2)]. }
    exists (set_at vals i (map (base (T i)) recs), set_at ctxs i (map (fun _ => false) recs)). split.
    { unfold value_step, node_of. rewrite En. cbn [get bind]. rewrite E. cbn [bind]. rewrite repeat_map. reflexivity. }
    cbn [fst snd]. intros j Hj. destruct (Nat.eq_dec j i) as [->|Nj]; [rewrite !set_at_same; auto|]. rewrite !set_at_other by auto. apply K. destruct Hj; [congruence|auto].
  - exists vals, ctxs. split; auto.
Qed.

(** ** Second pass *)
(** the context of a node not processed yet: reached from the root or from a processed node *)
Definition pend (L1 : list nat) (x : inst) (c : nat) : Prop := c = root \/
  exists p nd es e, In p L1 /\ hits h root x p /\ nth_error h p = Some nd /\ n_body nd = BDec es /\ In e es /\
    sat h (e_prime e) x /\ sat h (e_sub e) x /\ (c = e_prime e \/ c = e_sub e).
Lemma pend_hits L1 i L2 x : L = L1 ++ i :: L2 -> (pend L1 x i <-> hits h root x i).
Proof.
  intros EL. split.
  - intros [->|(p & nd & es & e & Hp & HH & En & Eb & He & S1 & S2 & C)]; [constructor|econstructor; eauto].
  - intros HH. inversion HH as [Er|p nd es e c HP' En Eb He S1 S2 C Ec]; [left; auto|]. clear Ec HH. clear c.
    assert (In p L) as Hp.
    { apply (so_in _ _ _ SO). clear - HP'. induction HP' as [|p nd es e c HP' IH En Eb He S1 S2 C]; [constructor|].
      clear - IH En Eb He C. induction IH as [i|i nd' c' j E Hc R' IH']; [|eapply reach_step; eauto].
      eapply reach_step; [exact En|apply in_children; eauto 10|constructor]. }
    right. exists p, nd, es, e. repeat (split; auto). rewrite EL in Hp. apply in_app_iff in Hp as [Hp|Hp]; auto. exfalso.
    pose proof (so_nodup _ _ _ SO) as ND. pose proof (NoDup_app_nin L1 L2 i ltac:(rewrite <- EL; exact ND)) as NI. apply NI.
    destruct Hp as [<-|Hp].
    + apply (so_topo _ _ _ SO L1 i L2 EL nd); auto. apply in_children; eauto 10.
    + apply in_split in Hp as (A & B & ->).
      assert (In i B) as HB. { apply (so_topo _ _ _ SO (L1 ++ i :: A) p B ltac:(rewrite EL, <- app_assoc; reflexivity) nd); auto. apply in_children; eauto 10. }
      apply in_app_iff. right. right. auto.
Qed.
Lemma add_count_spec (dc : counts) i k n d : nth_error (dc i) k = Some d -> add_count dc i k n = Ok (set_at dc i (upd_nth (dc i) k (d + n)%N)).
Proof. intros E. unfold add_count. rewrite E. reflexivity. Qed.
(** the state of the contexts: a function per node *)
Definition ctx_is (ctxs : batches) (C : nat -> inst -> bool) (i : nat) : Prop := ctxs i = map (C i) recs.
Lemma elem_loop i vals (es0 : list (elem P)) (c0 : inst -> bool) L2 :
  (forall e, In e es0 -> vals (e_prime e) = map (base (T (e_prime e))) recs /\ vals (e_sub e) = map (base (T (e_sub e))) recs /\
     In (e_prime e) L2 /\ In (e_sub e) L2) -> ~ In i L2 ->
  forall k es ctxs C (dc : counts), (forall e, In e es -> In e es0) -> (forall c, In c L2 -> ctx_is ctxs C c) -> ctxs i = map c0 recs ->
  (k + length es <= length (dc i))%nat -> (forall j, (k <= j)%nat -> (j < k + length es)%nat -> nth_error (dc i) j = Some 0%N) ->
  exists ctxs' C' dc', foldM (elem_step i vals) es (k, ctxs, dc) = Ok ((k + length es)%nat, ctxs', dc') /\
    (forall c, In c L2 -> ctx_is ctxs' C' c) /\
    (forall c x, C' c x = true <-> C c x = true \/ exists e, In e es /\ c0 x = true /\ base (T (e_prime e)) x = true /\ base (T (e_sub e)) x = true /\ (c = e_prime e \/ c = e_sub e)) /\
    (forall j, j <> i -> dc' j = dc j) /\ length (dc' i) = length (dc i) /\
    (forall j, (j < k \/ k + length es <= j)%nat -> nth_error (dc' i) j = nth_error (dc i) j) /\
    (forall j e, nth_error es j = Some e -> exists n, nth_error (dc' i) (k + j)%nat = Some n /\
        ncount (fun x => c0 x = true /\ base (T (e_prime e)) x = true /\ base (T (e_sub e)) x = true) recs n) /\
    ctxs' i = map c0 recs.
Proof.
  intros HV NI. intros k es. revert k. induction es as [|e es IH]; intros k ctxs C dc HS HC Ei HL HZ.
  - exists ctxs, C, dc. cbn [foldM length]. rewrite Nat.add_0_r. split; auto. split; auto. split. { intros c x. split; auto. intros [G|(e & [] & _)]; auto. }
    split; auto. split; auto. split; auto. split; auto. intros [|j] e; discriminate.
  - destruct (HV e (HS e (or_introl eq_refl))) as (V1 & V2 & I1 & I2).
    set (hit := fun x => c0 x && base (T (e_prime e)) x && base (T (e_sub e)) x).
    assert (hit_list (ctxs i) (vals (e_prime e)) (vals (e_sub e)) = Ok (map hit recs)) as EH by (rewrite Ei, V1, V2; apply hit_map).
    set (C1 := set_at C (e_prime e) (fun x => C (e_prime e) x || hit x)).
    set (C2 := set_at C1 (e_sub e) (fun x => C1 (e_sub e) x || hit x)).
    set (ctxs1 := set_at ctxs (e_prime e) (map (fun x => C (e_prime e) x || hit x) recs)).
    set (ctxs2 := set_at ctxs1 (e_sub e) (map (fun x => C1 (e_sub e) x || hit x) recs)).
    assert (forall c, In c L2 -> ctx_is ctxs1 C1 c) as K1.
    { intros c Hc. unfold ctx_is, ctxs1, C1. destruct (Nat.eq_dec c (e_prime e)) as [->|Nc]; [rewrite !set_at_same; auto|]. rewrite !set_at_other by auto. apply HC; auto. }
    assert (forall c, In c L2 -> ctx_is ctxs2 C2 c) as K2.
    { intros c Hc. unfold ctx_is, ctxs2, C2. destruct (Nat.eq_dec c (e_sub e)) as [->|Nc]; [rewrite !set_at_same; auto|]. rewrite !set_at_other by auto. apply K1; auto. }
    simpl in HL.
    assert (nth_error (dc i) k = Some 0%N) as Ek by (apply HZ; simpl; lia).
    set (dc1 := if N.eqb (trues (map hit recs)) 0 then dc else set_at dc i (upd_nth (dc i) k (0 + trues (map hit recs))%N)).
    assert (elem_step i vals (k, ctxs, dc) e = Ok (S k, ctxs2, dc1)) as ES.
    { unfold elem_step. rewrite EH. cbn [bind].
      assert ((if N.eqb (trues (map hit recs)) 0 then Ok dc else add_count dc i k (trues (map hit recs))) = Ok dc1) as ->.
      { unfold dc1. destruct (N.eqb _ _); auto. rewrite (add_count_spec dc i k _ 0%N) by auto. reflexivity. }
      cbn [bind]. rewrite (HC _ I1), mark_map. cbn [bind]. fold ctxs1. rewrite (K1 _ I2), mark_map. reflexivity. }
    assert (forall j, j <> i -> dc1 j = dc j) as D1 by (intros j Hj; unfold dc1; destruct (N.eqb _ _); auto; rewrite set_at_other; auto).
    assert (length (dc1 i) = length (dc i)) as D2 by (unfold dc1; destruct (N.eqb _ _); auto; rewrite set_at_same, upd_nth_length; auto; lia).
    assert (forall j, nth_error (dc1 i) j = if Nat.eqb j k then Some (trues (map hit recs)) else nth_error (dc i) j) as D3.
    { intros j. unfold dc1. destruct (N.eqb (trues (map hit recs)) 0) eqn:Et.
      - apply N.eqb_eq in Et. rewrite Et. destruct (Nat.eqb j k) eqn:Ej; auto. apply Nat.eqb_eq in Ej. subst. auto.
      - rewrite set_at_same, nth_upd_nth by lia. rewrite N.add_0_l. reflexivity. }
    assert (ctxs2 i = map c0 recs) as Ei2.
    { unfold ctxs2, ctxs1. rewrite !set_at_other; auto; intros ->; contradiction. }
    destruct (IH (S k) ctxs2 C2 dc1) as (ctxs' & C' & dc' & E & H1 & H2 & H3 & H4 & H5 & H6 & H7); auto.
    { intros; apply HS; right; auto. } { simpl in HL. rewrite D2. lia. }
    { intros j Hj1 Hj2. rewrite D3. destruct (Nat.eqb j k) eqn:Ej; [apply Nat.eqb_eq in Ej; lia|]. apply HZ; simpl; lia. }
    exists ctxs', C', dc'. cbn [foldM length]. rewrite ES. cbn [bind]. rewrite Nat.add_succ_r. split; [exact E|]. split; auto.
    split.
    { intros c x. rewrite H2.
      assert (C2 c x = true <-> C c x = true \/ (hit x = true /\ (c = e_prime e \/ c = e_sub e))) as Q.
      { unfold C2, C1. destruct (Nat.eq_dec c (e_sub e)) as [->|N2].
        - rewrite set_at_same, orb_true_iff. destruct (Nat.eq_dec (e_sub e) (e_prime e)) as [Eq|N1].
          + rewrite Eq, set_at_same, orb_true_iff. tauto.
          + rewrite set_at_other by auto. tauto.
        - rewrite (set_at_other _ (e_sub e)) by auto. destruct (Nat.eq_dec c (e_prime e)) as [->|N1].
          + rewrite set_at_same, orb_true_iff. tauto.
          + rewrite set_at_other by auto. tauto. }
      rewrite Q. unfold hit. rewrite !andb_true_iff. split.
      - intros [[G|(((G1 & G2) & G3) & G4)]|(e' & G0 & G)]; auto; right; [exists e|exists e']; simpl; tauto.
      - intros [G|(e' & [<-|G0] & G)]; auto; [tauto|]. right. exists e'. auto. }
    split. { intros j Hj. rewrite H3; auto. }
    split; [congruence|]. split.
    { intros j Hj. rewrite H5 by lia. rewrite D3. destruct (Nat.eqb j k) eqn:Ej; auto. apply Nat.eqb_eq in Ej. lia. }
    split; auto. intros [|j] e' Ej; cbn [nth_error] in Ej.
    + injection Ej as <-. exists (trues (map hit recs)). rewrite Nat.add_0_r. rewrite H5 by lia. rewrite D3, Nat.eqb_refl. split; auto.
      eapply ncount_ext; [|apply trues_map]. intros x _. unfold hit. rewrite !andb_true_iff. tauto.
    + destruct (H6 j e' Ej) as (n & G1 & G2). exists n. rewrite Nat.add_succ_r. auto.
Qed.
Definition arity (nd : node) : nat := match n_body nd with BLit _ => 0%nat | BTop _ _ _ => 2%nat | BDec es => length es end.
Lemma nth_repeat_some {A} (a : A) n j : (j < n)%nat -> nth_error (repeat a n) j = Some a.
Proof. revert j. induction n as [|n IH]; intros [|j] H; simpl; try lia; auto. apply IH. lia. Qed.
Lemma list_ext {A} : forall l l' : list A, (forall j, nth_error l j = nth_error l' j) -> l = l'.
Proof.
  induction l as [|a l IH]; intros [|b l'] H; auto; try (specialize (H 0%nat); discriminate).
  pose proof (H 0%nat) as H0. injection H0 as ->. f_equal. apply IH. intros j. apply (H (S j)).
Qed.
Lemma context_pass (vals ctxs : batches) (dc : counts) :
  (forall i, In i L -> vals i = map (base (T i)) recs) -> (forall i, In i L -> ctxs i = map (fun _ => Nat.eqb i root) recs) ->
  (forall i nd, In i L -> nth_error h i = Some nd -> dc i = repeat 0%N (arity nd)) ->
  exists vals' ctxs' dc', foldM (context_step h ex) L (vals, ctxs, dc) = Ok (vals', ctxs', dc') /\
    (forall i, ~ In i L -> dc' i = dc i) /\
    (forall i nd, In i L -> nth_error h i = Some nd -> exists ns, dc' i = ns /\ node_counts h root recs i nd ns).
Proof.
  intros HV HC HD.
  destruct (top_down (context_step h ex) (fun L1 st => exists C, forall L2, L = L1 ++ L2 ->
     (forall i, In i L2 -> fst (fst st) i = map (base (T i)) recs) /\
     (forall i, In i L2 -> ctx_is (snd (fst st)) C i /\ forall x, C i x = true <-> pend L1 x i) /\
     (forall i, ~ In i L1 -> snd st i = dc i) /\
     (forall i nd, In i L1 -> nth_error h i = Some nd -> node_counts h root recs i nd (snd st i))) L (vals, ctxs, dc)) as ([[vals' ctxs'] dc'] & E & C & K).
  - intros L1 i L2 [[vals1 ctxs1] dc1] EL (C & K). destruct (K (i :: L2) EL) as (K1 & K2 & K3 & K4). cbn [fst snd] in *. clear K.
    pose proof (so_nodup _ _ _ SO) as ND. pose proof ND as ND'. rewrite EL in ND'.
    pose proof (NoDup_app_nin L1 L2 i ND') as NI.
    assert (~ In i L1) as NI1. { intros Hx. apply NoDup_remove_2 in ND'. apply ND'. apply in_app_iff. auto. }
    pose proof (ser_lt vroot h HO root L SO i ltac:(rewrite EL; apply in_elt)) as Hi.
    pose proof Hi as Hi'. apply nth_error_Some in Hi'. destruct (nth_error h i) as [nd|] eqn:En; [|congruence]. clear Hi'.
    assert (dc1 i = repeat 0%N (arity nd)) as Ed by (rewrite K3 by auto; apply HD; auto; rewrite EL; apply in_elt).
    destruct (K2 i (or_introl eq_refl)) as (Ci & Pi).
    assert (forall x, C i x = true <-> hits h root x i) as Hits by (intros x; rewrite Pi; apply (pend_hits L1 i L2 x EL)).
    assert (exists ctxs2 dc2 C2, context_step h ex (vals1, ctxs1, dc1) i = Ok (set_at vals1 i [], set_at ctxs2 i [], dc2) /\
       (forall c, In c L2 -> ctx_is ctxs2 C2 c) /\ (forall j, j <> i -> dc2 j = dc1 j) /\ node_counts h root recs i nd (dc2 i) /\
       (forall c x, In c L2 -> (C2 c x = true <-> C c x = true \/ exists es e, n_body nd = BDec es /\ In e es /\ hits h root x i /\
           sat h (e_prime e) x /\ sat h (e_sub e) x /\ (c = e_prime e \/ c = e_sub e)))) as (ctxs2 & dc2 & C2 & E & G1 & G2 & G3 & G4).
    { unfold context_step, node_of. rewrite En. cbn [get bind]. unfold node_counts. unfold arity in Ed.
      destruct (n_body nd) as [l|v pt pf|es] eqn:Eb.
      - exists ctxs1, dc1, C. split; auto. split; [intros c Hc; apply K2; right; auto|]. split; auto. split; auto. intros c x Hc. split; auto.
        intros [G|(es & e & Q & _)]; [auto|discriminate].
      - rewrite (HX i nd v); [|rewrite EL; apply in_elt|auto|unfold node_var; rewrite Eb; auto].
        destruct (count_top_map recs (C i) v) as (a & b & E1 & A & B). rewrite Ci, E1. cbn [bind].
        rewrite (add_count_spec dc1 i 0 a 0%N) by (rewrite Ed; reflexivity). cbn [bind].
        rewrite (add_count_spec _ i 1 b 0%N) by (rewrite set_at_same, Ed; reflexivity). cbn [bind].
        exists ctxs1, (set_at (set_at dc1 i (upd_nth (dc1 i) 0 (0 + a)%N)) i (upd_nth (set_at dc1 i (upd_nth (dc1 i) 0 (0 + a)%N) i) 1 (0 + b)%N)), C.
        split; auto. split; [intros c Hc; apply K2; right; auto|]. split; [intros j Hj; rewrite !set_at_other; auto|]. split.
        + exists a, b. rewrite !set_at_same, Ed. rewrite !N.add_0_l. split; [reflexivity|].
          split; (eapply ncount_ext; [|eassumption]); intros x _; cbn beta; rewrite Hits; tauto.
        + intros c x Hc. split; auto. intros [G|(es & e & Q & _)]; [auto|discriminate].
      - assert (forall e, In e es -> In (e_prime e) L2 /\ In (e_sub e) L2) as CH by (intros e He; apply (ser_elem h root L SO L1 i L2 nd es e EL En Eb He)).
        assert (forall e, In e es -> (e_prime e < length h)%nat /\ (e_sub e < length h)%nat) as CL.
        { intros e He. destruct (CH e He). split; apply (ser_lt vroot h HO root L SO); rewrite EL; apply in_app_iff; right; right; auto. }
        destruct (elem_loop i vals1 es (C i) L2) with (k := 0%nat) (es := es) (ctxs := ctxs1) (C := C) (dc := dc1) as (ctxs' & C' & dc' & E & H1 & H2 & H3 & H4 & H5 & H6 & H7); auto.
        { intros e He. destruct (CH e He) as [Q1 Q2]. split; [apply K1; right; auto|]. split; [apply K1; right; auto|]. auto. }
        { intros c Hc. apply K2. right; auto. }
        { rewrite Ed, repeat_length. lia. } { intros j _ Hj. rewrite Ed. apply nth_repeat_some. lia. }
        rewrite E. cbn [bind snd]. exists ctxs', dc', C'. split; auto. split; auto. split; auto. split.
        + rewrite Ed, repeat_length in H4.
          clear - H4 H6 Hits CL HT. rename H4 into HLen. assert (forall j e, nth_error es j = Some e -> exists n, nth_error (dc' i) j = Some n /\
             ncount (fun x => hits h root x i /\ sat h (e_prime e) x /\ sat h (e_sub e) x) recs n) as H6'.
          { intros j e Ej. destruct (H6 j e Ej) as (n & Q1 & Q2). exists n. split; auto. eapply ncount_ext; [|exact Q2]. intros x _. cbn beta.
            destruct (CL e (nth_error_In _ _ Ej)). rewrite Hits, !sat_T by auto. tauto. }
          clear H6 Hits CL. remember (dc' i) as ns eqn:Eq. clear Eq. revert ns HLen H6'. induction es as [|e es IH]; intros [|n ns] HLen H6'; try discriminate; constructor.
          * destruct (H6' 0%nat e eq_refl) as (n' & Q1 & Q2). injection Q1 as <-. exact Q2.
          * apply IH; [simpl in HLen; lia|]. intros j e' Ej. apply (H6' (S j) e' Ej).
        + intros c x Hc. rewrite H2. split.
          * intros [G|(e & He & Q1 & Q2 & Q3 & Q4)]; auto. right. exists es, e. destruct (CL e He). rewrite !sat_T by auto. rewrite <- Hits. auto 10.
          * intros [G|(es' & e & Q0 & He & Q1 & Q2 & Q3 & Q4)]; auto. right. injection Q0 as <-. exists e. destruct (CL e He). rewrite !sat_T in * by auto. rewrite <- Hits in Q1. auto 10. }
    exists (set_at vals1 i [], set_at ctxs2 i [], dc2). split; auto. exists C2. intros L2' EL'. rewrite <- app_assoc in EL'. simpl in EL'. rewrite EL in EL'.
    apply app_inv_head in EL'. injection EL' as <-. cbn [fst snd]. split; [|split; [|split]].
    + intros j Hj. rewrite set_at_other; [apply K1; right; auto|]. intros ->; contradiction.
    + intros j Hj. assert (j <> i) as Nj by (intros ->; contradiction). split; [unfold ctx_is; rewrite set_at_other by auto; apply G1; auto|].
      intros x. rewrite G4 by auto. destruct (K2 j (or_intror Hj)) as [_ Pj]. rewrite Pj. unfold pend. split.
      * intros [[->|(p & nd' & es & e & Q0 & Q)]|(es & e & Q0 & Q1 & Q2 & Q)]; [left; auto|right; exists p, nd', es, e; rewrite in_app_iff; tauto|].
        right. exists i, nd, es, e. rewrite in_app_iff. simpl. tauto.
      * intros [->|(p & nd' & es & e & Q0 & Q1 & Q2 & Q3 & Q)]; auto. apply in_app_iff in Q0 as [Q0|[<-|[]]]; [left; right; exists p, nd', es, e; tauto|].
        right. assert (nd' = nd) as -> by congruence. exists es, e. tauto.
    + intros j Hj. rewrite in_app_iff in Hj. assert (j <> i) as Nj by (intros ->; apply Hj; simpl; auto). rewrite G2 by auto. apply K3. tauto.
    + intros j nd' Hj Ej. apply in_app_iff in Hj as [Hj|[<-|[]]].
      * rewrite G2 by (intros ->; contradiction). apply K4; auto.
      * assert (nd' = nd) as -> by congruence. auto.
  - exists (fun i _ => Nat.eqb i root). intros L2 EL. cbn [fst snd]. simpl in EL. subst L2. split; auto. split.
    { intros i Hi. split; [apply HC; auto|]. intros x. rewrite Nat.eqb_eq. unfold pend. split; auto. intros [G|(p & nd & es & e & [] & _)]; auto. }
    split; auto. intros i nd [].
  - destruct (K [] ltac:(rewrite app_nil_r; auto)) as (K1 & K2 & K3 & K4). cbn [fst snd] in *. exists vals', ctxs', dc'. split; auto. split; auto.
    intros i nd Hi En. eauto.
Qed.

End Pass.
(** ** Third pass *)
Lemma no_records (h : heap) root (recs : list inst) i nd : recs = [] -> node_counts h root recs i nd (repeat 0%N (arity nd)).
Proof.
  intros ->. unfold node_counts, arity. destruct (n_body nd) as [l|v pt pf|es]; auto.
  - exists 0%N, 0%N. repeat split; constructor.
  - induction es; simpl; constructor; auto. constructor.
Qed.
Lemma node_counts_length (h : heap) root (recs : list inst) i nd ns : node_counts h root recs i nd ns -> length ns = arity nd.
Proof.
  unfold node_counts, arity. destruct (n_body nd) as [l|v pt pf|es]; [intros ->; auto|intros (a & b & -> & _); auto|].
  induction 1; simpl; auto.
Qed.
Lemma val_count alpha n : val (padd (pnat n) alpha) = rn n + val alpha.
Proof. rewrite (val_add HP), (val_nat HP). reflexivity. Qed.
Lemma smooth_spec alpha (ns : list N) z : ns <> [] -> Forall (fun n => 0 < rn n + val alpha) ns ->
  val z = rsum (fun k => rn k + val alpha) ns ->
  map val (map (fun w => pdiv w z) (map (fun n => padd (pnat n) alpha) ns)) = freqs (val alpha) ns /\ dist (freqs (val alpha) ns).
Proof.
  intros NE F Z.
  assert (map val (map (fun w => pdiv w z) (map (fun n => padd (pnat n) alpha) ns)) = freqs (val alpha) ns) as E.
  { unfold freqs. rewrite !map_map. apply map_ext_in. intros n Hn. rewrite Forall_forall in F.
    assert (0 < val z). { rewrite Z. apply rsum_pos; [intros; left; auto|exists n; auto]. }
    rewrite (val_div HP) by lra. rewrite val_count, Z. reflexivity. }
  split; auto. rewrite <- E. apply (scaled_dist val HP).
  - destruct ns; [congruence|discriminate].
  - apply Forall_map. eapply Forall_impl; [|exact F]. intros n Hn. cbn beta. rewrite val_count. auto.
  - rewrite Z, rsum_map. apply rsum_ext. intros. rewrite val_count. reflexivity.
Qed.
Lemma nth_seq {A} (l : list A) : mapM (fun k => get (nth_error l k)) (seq 0 (length l)) = Ok l.
Proof.
  apply mapM_Forall2. assert (forall p, Forall2 (fun k a => get (nth_error (p ++ l) k) = Ok a) (seq (length p) (length l)) l) as K; [|apply (K [])].
  induction l as [|a l IH]; intros p; [constructor|]. cbn [length seq]. constructor.
  - rewrite nth_error_app2, Nat.sub_diag by auto. reflexivity.
  - specialize (IH (p ++ [a])). rewrite app_length in IH. simpl in IH. rewrite Nat.add_1_r, <- app_assoc in IH. exact IH.
Qed.
Lemma learn_params_spec (dc : counts) alpha i (nd : node) : dc i <> [] \/ arity nd = 0%nat -> length (dc i) = arity nd -> Forall (fun n => 0 < rn n + val alpha) (dc i) ->
  exists ws, learn_params dc alpha i nd = Ok ws /\ map val ws = freqs (val alpha) (dc i) /\
    match n_body nd with
    | BLit _ => True
    | BTop _ _ _ => (exists a b, ws = [a; b] /\ top_ok (val a) (val b)) /\ dist (freqs (val alpha) (dc i))
    | BDec es => length ws = length es /\ (es <> [] -> dist (freqs (val alpha) (dc i)))
    end.
Proof.
  unfold arity, learn_params. intros NE EL F. destruct (n_body nd) as [l|v pt pf|es].
  - exists []. destruct (dc i); [auto|discriminate].
  - destruct (dc i) as [|a [|b [|c ns]]]; try discriminate. cbn [nth_error get bind].
    destruct (smooth_spec alpha [a; b] (padd (padd (pnat a) alpha) (padd (pnat b) alpha))) as [E D]; auto; [discriminate| |].
    { rewrite (val_add HP), !val_count. simpl. lra. }
    eexists. split; [reflexivity|]. split; [exact E|]. split; [|exact D]. do 2 eexists. split; [reflexivity|].
    right. cbn [map] in E. rewrite <- E in D. destruct D as [D1 D2]. inversion D1 as [|? ? Q1 Q2]; subst. inversion Q2; subst. simpl in D2. split; [lra|auto].
  - rewrite <- EL, nth_seq. cbn [bind]. exists (smooth alpha (dc i)). split; auto.
    destruct (list_eq_dec N.eq_dec (dc i) []) as [E0|N0].
    + rewrite E0 in *. split; auto. split; [auto|]. intros Hn. destruct es; [congruence|discriminate].
    + destruct (smooth_spec alpha (dc i) (fold_left padd (map (fun n => padd (pnat n) alpha) (dc i)) pzero)) as [E D]; auto.
      { rewrite (fold_padd val HP), (val_zero HP), rsum_map. rewrite Rplus_0_l. apply rsum_ext. intros. apply val_count. }
      split; [exact E|]. split; [unfold smooth; rewrite !map_length; auto|auto].
Qed.
Lemma learn_pass (hs : heap) fl L ud (m : mgr) (dc : counts) alpha : heap_ok (m_vt m) hs -> topo hs L -> Inv val fl m ->
  (forall i nd, In i L -> nth_error hs i = Some nd -> length (dc i) = arity nd /\ Forall (fun n => 0 < rn n + val alpha) (dc i)) ->
  let f := fun i => freqs (val alpha) (dc i) in
  exists ud' m', foldM (learn_step hs dc alpha fl) (rev L) (ud, m) = Ok (ud', m') /\
    Inv val fl m' /\ mext fl m m' /\ (forall i, In i L -> rimage val f hs fl m' ud' i) /\ (forall i, ~ In i L -> ud' i = ud i) /\
    (forall i nd, In i L -> nth_error hs i = Some nd -> match n_body nd with BLit _ => True | _ => dist (f i) end).
Proof.
  intros HO TP I HD f.
  destruct (bottom_up (learn_step hs dc alpha fl) (fun L2 st =>
    Inv val fl (snd st) /\ mext fl m (snd st) /\ (forall i, In i L2 -> rimage val f hs fl (snd st) (fst st) i) /\ (forall i, ~ In i L2 -> fst st i = ud i) /\
    (forall i nd, In i L2 -> nth_error hs i = Some nd -> match n_body nd with BLit _ => True | _ => dist (f i) end)) L (ud, m))
    as ([ud' m'] & E & H1 & H2 & H3 & H4 & H5).
  - intros L1 i L2 [ud0 m0] EL (H3 & H4 & H5 & H6 & H7). cbn [fst snd] in *.
    pose proof TP as (ND & PF & HL).
    assert (i < length hs)%nat as Hi by (apply HL; rewrite EL; apply in_elt).
    apply nth_error_Some in Hi. destruct (nth_error hs i) as [nd|] eqn:En; [|congruence].
    pose proof (HO _ _ En) as NO.
    destruct (HD i nd ltac:(rewrite EL; apply in_elt) En) as [HL1 HF].
    destruct (learn_params_spec dc alpha i nd) as (ws & E1 & EW & K); auto.
    { destruct (arity nd); auto. left. intros E0. rewrite E0 in HL1. discriminate. }
    destruct (relab_step_spec val HP f hs fl L L1 i L2 ud0 m0 ws nd) as (j & m1 & E5 & I1 & X1 & IM1); auto.
    { rewrite (me_vt _ _ _ H4). auto. } { destruct (n_body nd); tauto. }
    exists (set_ud ud0 i (Some j), m1). split.
    { unfold learn_step, node_of. rewrite En. cbn [get bind]. rewrite E1. cbn [bind]. exact E5. }
    cbn [fst snd]. split; auto. split; [eapply mext_trans; eauto|]. split.
    { intros c Hc. destruct (IM1 c Hc) as (j' & p & t' & Q1 & Q2 & Q3 & Q4 & Q5). exists j', p, t'. split; auto. split; auto. split; auto. split; auto.
      eapply relab_ext; [|exact Q4]. intros k _. destruct (Nat.eq_dec k i) as [->|Nk]; [rewrite set_at_same; auto|rewrite set_at_other; auto]. }
    split.
    { intros c Hc. unfold set_ud. destruct (Nat.eqb c i) eqn:Ec; [apply Nat.eqb_eq in Ec; subst; exfalso; apply Hc; left; auto|]. apply H6. intros G. apply Hc. right; auto. }
    intros c nd' Hc Ec. destruct (Nat.eq_dec c i) as [->|Nc].
    + rewrite En in Ec. injection Ec as <-. unfold node_ok in NO. destruct (n_body nd); auto; [tauto|]. apply K. tauto.
    + apply H7; auto. destruct Hc; [congruence|auto].
  - cbn [fst snd]. split; auto. split; [apply mext_refl|]. split; [intros i []|]. split; auto. intros i nd [].
  - cbn [fst snd] in *. exists ud', m'. auto 10.
Qed.
Lemma reset_spec L : forall (dc : counts) i, reset_counts L dc i = if memb i L then map (fun _ => 0%N) (dc i) else dc i.
Proof.
  unfold reset_counts. induction L as [|j L IH]; intros dc i; auto. cbn [fold_left]. rewrite IH. cbn [memb existsb]. fold (memb i L).
  destruct (Nat.eqb i j) eqn:E; cbn [orb].
  - apply Nat.eqb_eq in E. subst. rewrite set_at_same, map_map. destruct (memb j L); auto.
  - rewrite set_at_other by (apply Nat.eqb_neq; auto). reflexivity.
Qed.
(** [alpha] and the counts never give a zero total *)
(** the counting passes of LearnPsddParameters *)
Lemma count_passes (m : mgr) root s t L (dc : counts) (recs : list inst) (ex : examples) : psdd_at val m root s t -> ser_of (m_heap m) root L ->
  (forall v, In v (leaves s) -> ex v = Some (map (fun x => x v) recs)) ->
  (forall i nd, reach (m_heap m) root i -> nth_error (m_heap m) i = Some nd -> dc i = repeat 0%N (arity nd)) ->
  exists dc1, (if Nat.eqb (length recs) 0 then Ok dc else
        do (vals, ctxs) <- foldM (value_step (m_heap m) ex (length recs)) (rev L) (fun _ => [], fun _ => []) ;;
        do (_, dc1) <- foldM (context_step (m_heap m) ex) L (vals, set_at ctxs root (map negb (ctxs root)), dc) ;;
        Ok dc1) = Ok dc1 /\ (forall i, ~ In i L -> dc1 i = dc i) /\
        (forall i nd, In i L -> nth_error (m_heap m) i = Some nd -> node_counts (m_heap m) root recs i nd (dc1 i)).
Proof.
  intros A SO HX HD. destruct (psdd_at_facts val m root s t A) as (HO & _). destruct A as (W & HR & p & V & S).
  set (h := m_heap m) in *.
  destruct (rep_choice val (m_vt m) h HO) as [T HT].
  assert (forall i nd v, In i L -> nth_error h i = Some nd -> node_var nd = Some v -> ex v = Some (map (fun x => x v) recs)) as HX'.
  { intros i nd v Hi En Ev. apply HX. apply (so_in _ _ _ SO) in Hi. destruct (reach_vt _ _ _ _ HO Hi p V) as [u Hu]. unfold vt_of in Hu. rewrite En in Hu. injection Hu as Hu.
    pose proof (HO _ _ En) as NO. unfold node_ok in NO. unfold node_var in Ev. rewrite Hu in NO.
    assert (subtree (m_vt m) (u ++ p) = Some (Leaf v)) as SV by (destruct (n_body nd); [injection Ev as <-; auto|injection Ev as <-; auto|discriminate]).
    apply (subtree_leaves _ _ _ _ _ S SV). left. reflexivity. }
  destruct (Nat.eqb (length recs) 0) eqn:E0.
  - apply Nat.eqb_eq in E0. destruct recs; [|discriminate]. exists dc. split; auto. split; auto. intros i nd Hi En.
    rewrite (HD i nd) by (auto; apply (so_in _ _ _ SO); auto). apply no_records. auto.
  - destruct (value_pass (m_vt m) h HO root L SO T HT recs ex HX') as (vals & ctxs & Ev & K). rewrite Ev. cbn [bind].
    destruct (context_pass (m_vt m) h HO root L SO T HT recs ex HX' vals (set_at ctxs root (map negb (ctxs root))) dc) as (vals' & ctxs' & dc1 & Ec & C1 & C2).
    { intros i Hi. apply K; auto. }
    { intros i Hi. destruct (Nat.eq_dec i root) as [->|Ni].
      - rewrite set_at_same. destruct (K root Hi) as [_ ->]. rewrite map_map, Nat.eqb_refl. reflexivity.
      - rewrite set_at_other by auto. destruct (K i Hi) as [_ ->]. apply Nat.eqb_neq in Ni. rewrite Ni. reflexivity. }
    { intros i nd Hi En. apply HD; auto. apply (so_in _ _ _ SO); auto. }
    match goal with |- context [foldM (context_step h ex) L ?x] => replace (foldM (context_step h ex) L x) with (Ok (vals', ctxs', dc1)) by (symmetry; exact Ec) end.
    cbn [bind]. exists dc1. split; auto. split; auto. intros i nd Hi En. destruct (C2 i nd Hi En) as (ns & <- & G). exact G.
Qed.
Theorem learn_gen (m : mgr) fl root s t ud (dc : counts) (recs : list inst) (ex : examples) alpha : tidy val fl m -> psdd_at val m root s t ->
  (forall v, In v (leaves s) -> ex v = Some (map (fun x => x v) recs)) ->
  (forall i nd, reach (m_heap m) root i -> nth_error (m_heap m) i = Some nd -> dc i = repeat 0%N (arity nd)) ->
  (forall i nd ns, reach (m_heap m) root i -> nth_error (m_heap m) i = Some nd -> node_counts (m_heap m) root recs i nd ns -> Forall (fun n => 0 < rn n + val alpha) ns) ->
  exists r ud' dc' m' t' f, LearnPsddParameters (m_heap m) ud dc root ex (length recs) alpha fl m = Ok (r, ud', dc', m') /\ mext fl m m' /\
    psdd_at val m' r s t' /\ flag_of (m_heap m') r = Some fl /\ In r (m_live m') /\
    relab f (m_heap m) root t' /\
    (forall i nd, reach (m_heap m) root i -> nth_error (m_heap m) i = Some nd -> exists ns, node_counts (m_heap m) root recs i nd ns /\ f i = freqs (val alpha) ns) /\
    (forall x, base t' x = base t x) /\ positive t' /\ normalized t' /\ (deterministic t -> deterministic t') /\
    (forall i, dc' i = dc i) /\
    (forall i, reach (m_heap m) root i -> ud' i = None) /\ (forall i, ~ reach (m_heap m) root i -> ud' i = ud i).
Proof.
  intros TD A HX HD HA. pose proof (tidy_inv val HP fl m TD) as I. destruct (psdd_at_facts val m root s t A) as (HO & _ & _ & L & SO). pose proof A as A0. destruct A as (W & HR & p & V & S).
  destruct (count_passes m root s t L dc recs ex A0 SO HX HD) as (dc1 & E1 & Q1 & Q2). set (h := m_heap m) in *.
  assert (topo h L) as TP. { split; [apply SO|]. split; [apply SO|]. intros i Hi. apply (ser_lt _ h HO root L SO i Hi). }
  destruct (learn_pass h fl L ud m dc1 alpha HO TP I) as (ud1 & m' & E2 & I' & X & IM & UD & DS).
  { intros i nd Hi En. pose proof (Q2 i nd Hi En) as NC. split; [eapply node_counts_length; eauto|]. eapply HA; eauto. apply (so_in _ _ _ SO); auto. }
  assert (In root L) as HrL by (apply (so_in _ _ _ SO); constructor).
  destruct (IM root HrL) as (r & p' & t' & U & V' & [A1 A2] & RL & FL & LV). assert (p' = p) as -> by congruence.
  exists r, (clear_ud L ud1), (reset_counts L dc1), m', t', (fun i => freqs (val alpha) (dc1 i)).
  split. { unfold LearnPsddParameters. rewrite (so_eq _ _ _ SO). cbn [bind]. rewrite E1. cbn [bind]. rewrite E2. cbn [bind]. rewrite U. reflexivity. }
  split; auto. split. { split; [apply I'|]. split; auto. exists p. rewrite (me_vt _ _ _ X). auto. }
  split; auto. split; auto. split; auto. split. { intros i nd Hi En. exists (dc1 i). split; auto. apply Q2; auto. apply (so_in _ _ _ SO); auto. }
  destruct (relab_facts val (fun i => freqs (val alpha) (dc1 i)) h t root t' HR RL) as (B1 & B2 & B3).
  destruct B3 as [B3 B4]. { intros j nd Rj Ej. apply DS; auto. apply (so_in _ _ _ SO); auto. }
  split; auto. split; auto. split; auto. split; auto. split; [|split].
  - intros i. rewrite reset_spec. destruct (memb i L) eqn:Em.
    + apply memb_In in Em. destruct (nth_error h i) as [nd|] eqn:En.
      * rewrite (HD i nd) by (auto; apply (so_in _ _ _ SO); auto). rewrite <- (node_counts_length _ _ _ _ _ _ (Q2 i nd Em En)).
        clear. induction (dc1 i); simpl; congruence.
      * apply (ser_lt _ h HO root L SO i) in Em. apply nth_error_None in En. lia.
    + apply Q1. apply memb_false. auto.
  - intros i Hi. rewrite clear_ud_spec. assert (memb i L = true) as -> by (apply memb_In; apply (so_in _ _ _ SO); auto). auto.
  - intros i Hi. rewrite clear_ud_spec. rewrite <- (so_in _ _ _ SO) in Hi. assert (memb i L = false) as -> by (apply memb_false; auto). auto.
Qed.
Theorem learn_full (m : mgr) fl root s t ud (dc : counts) (recs : list inst) (ex : examples) alpha : tidy val fl m -> psdd_at val m root s t ->
  (forall v, In v (leaves s) -> ex v = Some (map (fun x => x v) recs)) ->
  (forall i nd, reach (m_heap m) root i -> nth_error (m_heap m) i = Some nd -> dc i = repeat 0%N (arity nd)) -> 0 < val alpha ->
  exists r ud' dc' m' t' f, LearnPsddParameters (m_heap m) ud dc root ex (length recs) alpha fl m = Ok (r, ud', dc', m') /\ mext fl m m' /\
    psdd_at val m' r s t' /\ flag_of (m_heap m') r = Some fl /\ In r (m_live m') /\
    relab f (m_heap m) root t' /\
    (forall i nd, reach (m_heap m) root i -> nth_error (m_heap m) i = Some nd -> exists ns, node_counts (m_heap m) root recs i nd ns /\ f i = freqs (val alpha) ns) /\
    (forall x, base t' x = base t x) /\ positive t' /\ normalized t' /\ (deterministic t -> deterministic t') /\
    (forall i, dc' i = dc i) /\
    (forall i, reach (m_heap m) root i -> ud' i = None) /\ (forall i, ~ reach (m_heap m) root i -> ud' i = ud i).
Proof.
  intros TD A HX HD HA. apply learn_gen; auto. intros i nd ns _ _ _. apply Forall_forall. intros n _. unfold rn. pose proof (IZR_le 0 (Z.of_N n) ltac:(lia)). lra.
Qed.
End Count.
