(** Proofs about the compilation of whole networks (exact parameters). *)
From Coq Require Import Reals Lra.
From Verif Require Import Base Param Vtree VtreeProofs Spec SpecProofs Heap Manager HeapProofs SerProofs RepProofs MulProofs Query TreeProofs
  Pgm PgmLayout PgmProofs.
Local Open Scope R_scope.

(** What std::sort promises: a permutation, sorted. *)
Definition sorts (srt : (nat -> nat) -> list nat -> list nat) : Prop :=
  forall key l, Permutation (srt key l) l /\ forall l1 a l2 b l3, srt key l = l1 ++ a :: l2 ++ b :: l3 -> (key b <= key a)%nat.

Section Net.
Context {P : pops} {val : P -> R} (HP : pexact P val).
Notation mgr := (mgr P). Notation heap := (heap P).
Notation node_at := (node_at val). Notation Inv := (Inv val).

(** What never changes: the vtree and the nodes there were. *)
Definition hext (m m' : mgr) : Prop := m_vt m' = m_vt m /\ exists l, m_heap m' = m_heap m ++ l.
Lemma hext_refl m : hext m m.
Proof. split; auto. exists []. rewrite app_nil_r. auto. Qed.
Lemma hext_trans m1 m2 m3 : hext m1 m2 -> hext m2 m3 -> hext m1 m3.
Proof. intros [A (l & B)] [C (l' & D)]. split; [congruence|]. exists (l ++ l'). rewrite D, B, app_assoc. auto. Qed.
Lemma mext_hext fl m m' : mext fl m m' -> hext m m'.
Proof. intros X. split; [apply X|]. destruct (me_heap _ _ _ X) as (l & E & _). eauto. Qed.

Definition holds (m : mgr) (i : nat) (t : ptree) : Prop := node_at m i [] t /\ positive t /\ deterministic t /\ In i (m_live m).
Lemma holds_mext fl m m' i t : mext fl m m' -> holds m i t -> holds m' i t.
Proof. intros X (A & B & C & D). split; [eapply node_at_ext; eauto|]. split; auto. split; auto. apply X; auto. Qed.
Lemma holds_all_mext fl m m' qs ts : mext fl m m' -> Forall2 (holds m) qs ts -> Forall2 (holds m') qs ts.
Proof. intros X. induction 1; constructor; eauto using holds_mext. Qed.
Definition tprod (ts : list ptree) (x : inst) : R := fold_right (fun t r => weight t x * r) 1 ts.
Lemma tprod_perm ts ts' x : Permutation ts ts' -> tprod ts x = tprod ts' x.
Proof. induction 1; simpl; try rewrite IHPermutation; try ring. congruence. Qed.
Lemma tprod_app ts ts' x : tprod (ts ++ ts') x = tprod ts x * tprod ts' x.
Proof. induction ts as [|t ts IH]; simpl; [lra|]. rewrite IH. ring. Qed.
(** The nodes [qs] and the factor [z] stand for [g] *)
Definition pstate (m : mgr) (qs : list nat) (z : P) (g : inst -> R) : Prop :=
  0 < val z /\ exists ts, Forall2 (holds m) qs ts /\ forall x, tprod ts x * val z = g x.
Lemma pstate_perm m qs qs' z g : Permutation qs qs' -> pstate m qs z g -> pstate m qs' z g.
Proof.
  intros PM (Z & ts & F & W). split; auto. destruct (Forall2_perm _ _ _ PM _ F) as (ts' & PT & F'). exists ts'. split; auto.
  intros x. rewrite <- (tprod_perm _ _ x PT). auto.
Qed.
Lemma pstate_mext fl m m' qs z g : mext fl m m' -> pstate m qs z g -> pstate m' qs z g.
Proof. intros X (Z & ts & F & W). split; auto. exists ts. split; auto. eapply holds_all_mext; eauto. Qed.
Lemma pstate_ext m qs z g g' : (forall x, g x = g' x) -> pstate m qs z g -> pstate m qs z g'.
Proof. intros E (Z & ts & F & W). split; auto. exists ts. split; auto. intros x. rewrite <- E. auto. Qed.

(** One multiplication *)
Definition norm_at (m : mgr) (i : nat) : Prop := exists t, holds m i t /\ normalized t.
Lemma mult_step m a b qs z g : Inv 0%N m -> pstate m (a :: b :: qs) z g ->
  exists r m', Multiply m a b 0 = Ok (r, m') /\ Inv 0%N m' /\ mext 0%N m m' /\
    match fst r with
    | Some c => pstate m' (c :: qs) (pmul z (snd r)) g /\ norm_at m' c
    | None => val (pmul z (snd r)) = 0 /\ forall x, g x = 0
    end.
Proof.
  intros I (Z & ts & F & W). inversion F as [|? ta ? ts1 Ha F1]; subst. inversion F1 as [|? tb ? ts2 Hb F2]; subst.
  destruct Ha as (Na & Pa & Da & La). destruct Hb as (Nb & Pb & Db & Lb).
  destruct (multiply_spec val HP 0 m a b [] ta tb I Na Nb Pa Pb) as (r & m' & E & I' & X & M).
  pose proof (multiply_null val HP 0 m a b [] ta tb r m' I Na Nb Pa Pb E) as NU.
  exists r, m'. split; auto. split; auto. split; auto. unfold mul_ok in M. destruct (fst r) as [c|].
  - destruct M as (t & N & PO & _ & Lv). assert (holds m' c t) as Hc.
    { split; auto. split; [apply PO|]. split; auto. apply (po_det _ _ _ _ PO); auto. }
    split; [|exists t; split; auto; apply PO]. split.
    + rewrite (val_mul HP). apply Rmult_lt_0_compat; auto. apply PO.
    + exists (t :: ts2). split; [constructor; auto; eapply holds_all_mext; eauto|]. intros x. rewrite <- W, (val_mul HP). simpl.
      pose proof (po_weight _ _ _ _ PO x) as Ew. replace (weight t x * tprod ts2 x * (val z * val (snd r))) with ((weight t x * val (snd r)) * tprod ts2 x * val z) by ring.
      rewrite Ew. ring.
  - destruct M as [M1 _]. split; [rewrite (val_mul HP), M1; ring|]. intros x. rewrite <- W. simpl.
    replace (weight ta x * (weight tb x * tprod ts2 x) * val z) with ((weight ta x * weight tb x) * (tprod ts2 x * val z)) by ring.
    rewrite (proj1 NU eq_refl x). ring.
Qed.

(** ** Loading *)
Definition nonzero (F : factor P) : Prop := exists x, factor_value val F x <> 0.
Lemma load_factors_spec ords : (forall a b c, Permutation (ords a b c) c) -> forall fs k z m, Inv 0%N m ->
  (forall v, In v (leaves (m_vt m)) -> v <> 0%N) -> Forall (good_factor (m_vt m)) fs -> Forall nonzero fs -> 0 < val z ->
  exists nodes z' m', load_factors ords k fs z m = Ok (nodes, z', m') /\ Inv 0%N m' /\ mext 0%N m m' /\ length nodes = length fs /\
    pstate m' nodes z' (fun x => val z * network_value val fs x) /\
    (forall F, fs = [F] -> forall x, val z' = val z * sum_over (f_scope F) (factor_value val F) x).
Proof.
  intros HO. induction fs as [|F fs IH]; intros k z m I NZ G N Z; cbn [load_factors].
  - exists [], z, m. split; auto. split; auto. split; [apply mext_refl|]. split; auto. split.
    + split; auto. exists []. split; auto. intros x. simpl. ring.
    + discriminate.
  - inversion G as [|? ? G1 G2]; subst. inversion N as [|? ? N1 N2]; subst.
    destruct (compile_factor_cases HP (ords k) F m (fun a b => HO k a b) I NZ G1) as [[_ Z0]|(i & w & m1 & E1 & I1 & X1 & ST & SM)].
    { exfalso. destruct N1 as [x Hx]. auto. }
    rewrite E1. cbn [bind snd fst]. destruct ST as (Zw & t & A1 & A2 & A3 & A4 & A5).
    assert (0 < val (pmul z w)) as Z' by (rewrite (val_mul HP); apply Rmult_lt_0_compat; auto).
    destruct (IH (S k) (pmul z w) m1 I1) as (nodes & z' & m2 & E2 & I2 & X2 & EL & PS & SG); auto.
    { rewrite (me_vt _ _ _ X1). exact NZ. }
    { rewrite (me_vt _ _ _ X1). exact G2. }
    rewrite E2. cbn [bind fst snd]. exists (i :: nodes), z', m2. split; auto. split; auto. split; [eapply mext_trans; eauto|].
    split; [simpl; congruence|]. split.
    + destruct PS as (Pz & ts & Fts & Wts). split; auto. exists (t :: ts). split.
      * constructor; auto. eapply holds_mext; [exact X2|]. split; auto.
      * intros x. simpl. rewrite Rmult_assoc, Wts, (val_mul HP), <- A5. ring.
    + intros F' EF x. injection EF as <- ->. cbn [load_factors] in E2. injection E2 as <- <- <-. rewrite (val_mul HP), (SM x). reflexivity.
Qed.
Lemma load_factors_zero ords : (forall a b c, Permutation (ords a b c) c) -> forall fs k z m, Inv 0%N m ->
  (forall v, In v (leaves (m_vt m)) -> v <> 0%N) -> Forall (good_factor (m_vt m)) fs ->
  (exists F, In F fs /\ forall x, factor_value val F x = 0) -> load_factors ords k fs z m = UB.
Proof.
  intros HO. induction fs as [|F fs IH]; intros k z m I NZ G (F0 & HF & Z0); [contradiction|]. cbn [load_factors].
  inversion G as [|? ? G1 G2]; subst.
  destruct (compile_factor_cases HP (ords k) F m (fun a b => HO k a b) I NZ G1) as [[E1 _]|(i & w & m1 & E1 & I1 & X1 & ST & _)]; rewrite E1; cbn [bind fst snd]; auto.
  rewrite (IH (S k) (pmul z w) m1); auto.
  - rewrite (me_vt _ _ _ X1). exact NZ.
  - rewrite (me_vt _ _ _ X1). exact G2.
  - exists F0. split; auto. destruct HF as [<-|HF]; auto. exfalso.
    destruct ST as (Zw & t & A1 & A2 & A3 & A4 & A5). destruct (node_at_conforms val m1 i [] t (proj1 I1) A1) as (s & Hs & C).
    destruct (base_sat s) with (t := t) as [x Hx]; auto.
    { simpl in Hs. injection Hs as <-. apply (wf_leaves _ (proj1 I1)). }
    apply (weight_pos_base t x A2) in Hx. specialize (A5 x). rewrite Z0 in A5. apply Rmult_integral in A5. lra.
Qed.

(** ** The order *)
Lemma factor_order_ok root n (F : factor P) : good_factor root F -> exists k, factor_order root n F = Ok k.
Proof.
  intros [_ _ G _ _ _]. unfold factor_order. revert n. induction (f_scope F) as [|v vs IH]; intros n; cbn [foldM]; eauto.
  pose proof (leaf_path_spec root v) as S. destruct (leaf_path root v) as [p|].
  - cbn [get bind]. apply IH. intros w Hw. apply G. right; auto.
  - exfalso. apply S, G. left; auto.
Qed.
Lemma mapM_all {A B} (f : A -> res B) l : Forall (fun a => exists b, f a = Ok b) l -> exists bs, mapM f l = Ok bs.
Proof. induction 1 as [|a l (b & E) F (bs & IH)]; cbn [mapM]; eauto. rewrite E. cbn [bind]. rewrite IH. cbn [bind]. eauto. Qed.
Lemma mapM_nth (nodes : list nat) ks : Forall (fun k => (k < length nodes)%nat) ks ->
  mapM (fun k => get (nth_error nodes k)) ks = Ok (map (fun k => nth k nodes 0%nat) ks).
Proof.
  induction 1 as [|k ks H F IH]; cbn [mapM map]; auto. rewrite (nth_error_nth' nodes 0%nat H). cbn [get bind]. rewrite IH. reflexivity.
Qed.
Lemma map_nth_seq (l : list nat) : map (fun k => nth k l 0%nat) (seq 0 (length l)) = l.
Proof.
  induction l as [|a l IH]; simpl; auto. f_equal. rewrite <- seq_shift, map_map. exact IH.
Qed.
Lemma compilation_order_spec srt (m : mgr) (fs : network P) nodes : (forall key l, Permutation (srt key l) l) -> Forall (good_factor (m_vt m)) fs ->
  exists order, compilation_order srt m fs nodes = Ok order /\ Permutation order nodes.
Proof.
  intros HS G. unfold compilation_order. destruct (serialize_vtree_spec [] (m_vt m)) as (ser & E & _). rewrite E. cbn [bind].
  destruct (mapM_all (factor_order (m_vt m) (length ser)) fs) as (os & Eo).
  { eapply Forall_impl; [|exact G]. intros F HF. apply factor_order_ok; auto. }
  rewrite Eo. cbn [bind]. set (key := fun k => nth k os 0%nat).
  rewrite mapM_nth.
  - eexists. split; [reflexivity|]. rewrite (HS key). rewrite map_nth_seq. auto.
  - eapply Permutation_Forall; [apply Permutation_sym, HS|]. apply Forall_forall. intros k Hk. apply in_seq in Hk. lia.
Qed.

(** ** compile_network *)
(** The outcome: the product, or zero. *)
Definition outcome (m : mgr) (r : option nat) (z : P) (g : inst -> R) (several : Prop) : Prop :=
  (exists i t, r = Some i /\ holds m i t /\ 0 < val z /\ (forall x, weight t x * val z = g x) /\ (several -> normalized t)) \/
  (val z = 0 /\ forall x, g x = 0).
Definition sstate (m : mgr) (fin : option nat) (rest : list nat) (z : P) (g : inst -> R) : Prop :=
  Forall (fun i => exists t, holds m i t) rest /\
  match fin with Some i => exists t, holds m i t | None => True end /\
  (pstate m (match fin with Some i => i :: rest | None => rest end) z g \/ (val z = 0 /\ forall x, g x = 0)).
Lemma pstate_holds m qs z g : pstate m qs z g -> Forall (fun i => exists t, holds m i t) qs.
Proof. intros (_ & ts & F & _). induction F; constructor; eauto. Qed.
Lemma some_holds_ext fl m m' qs : mext fl m m' -> Forall (fun i => exists t, holds m i t) qs -> Forall (fun i => exists t, holds m' i t) qs.
Proof. intros X. apply Forall_impl. intros i (t & H). exists t. eapply holds_mext; eauto. Qed.
Lemma seq_loop g : forall l fin z m, Inv 0%N m -> sstate m fin l z g ->
  exists r z' m', foldM seq_step l (fin, z, m) = Ok (r, z', m') /\ Inv 0%N m' /\ mext 0%N m m' /\ sstate m' r [] z' g /\
    (l <> [] -> fin <> None -> (exists i, r = Some i /\ norm_at m' i) \/ (val z' = 0 /\ forall x, g x = 0)).
Proof.
  induction l as [|c l IH]; intros fin z m I S; cbn [foldM].
  - exists fin, z, m. split; auto. split; auto. split; [apply mext_refl|]. split; auto. congruence.
  - unfold seq_step at 1. destruct S as (S1 & S2 & S3). inversion S1 as [|? ? H1 S1']; subst. destruct fin as [a|].
    + destruct S2 as [ta Ha]. destruct H1 as [tc Hc].
      assert (exists r m', Multiply m a c 0 = Ok (r, m') /\ Inv 0%N m' /\ mext 0%N m m' /\ sstate m' (fst r) l (pmul z (snd r)) g /\
        match fst r with Some i => norm_at m' i | None => val (pmul z (snd r)) = 0 /\ forall x, g x = 0 end) as (r & m1 & E1 & I1 & X1 & S' & N1).
      { destruct S3 as [S3|[Z0 G0]].
        - destruct (mult_step m a c l z g I S3) as (r & m1 & E1 & I1 & X1 & M). exists r, m1. split; auto. split; auto. split; auto.
          pose proof (some_holds_ext _ _ _ _ X1 S1') as S1x. destruct (fst r) as [i|].
          + destruct M as [M1 M2]. split; [|exact M2]. split; [exact S1x|]. split; [destruct M2 as (t & Ht & _); eauto|]. left; auto.
          + split; [|exact M]. split; [exact S1x|]. split; [exact Logic.I|]. right; exact M.
        - destruct (mult_step m a c [] pone (fun x => weight ta x * weight tc x)) as (r & m1 & E1 & I1 & X1 & M); auto.
          { split; [rewrite (val_one HP); lra|]. exists [ta; tc]. split; auto. intros x. simpl. rewrite (val_one HP). ring. }
          exists r, m1. split; auto. split; auto. split; auto. pose proof (some_holds_ext _ _ _ _ X1 S1') as S1x.
          assert (val (pmul z (snd r)) = 0) as Zr by (rewrite (val_mul HP), Z0; ring). destruct (fst r) as [i|].
          + destruct M as [M1 M2]. split; [|exact M2]. split; [exact S1x|]. split; [destruct M2 as (t & Ht & _); eauto|]. right; auto.
          + split; [|auto]. split; [exact S1x|]. split; [exact Logic.I|]. right; auto. }
      rewrite E1. cbn [bind]. destruct (IH (fst r) (pmul z (snd r)) m1 I1 S') as (r2 & z2 & m2 & E2 & I2 & X2 & S2 & N2).
      exists r2, z2, m2. split; auto. split; auto. split; [eapply mext_trans; eauto|]. split; auto. intros _ _.
      destruct l as [|c' l'].
      * cbn [foldM] in E2. injection E2 as <- <- <-. destruct (fst r) as [i|]; [left; eauto|right; auto].
      * destruct (fst r) as [i|] eqn:Er; [apply N2; discriminate|]. right. destruct N1 as [Zn Gn]. split; auto.
        destruct S2 as (_ & _ & [S2|[S2 _]]); auto. exfalso.
        destruct S2 as (Zp & ts & F & W). destruct r2 as [i2|].
        -- inversion F as [|? t2 ? ts2 Ht2 F2]; subst. inversion F2; subst.
           destruct Ht2 as (At & Pt & _). destruct (node_at_conforms val m2 i2 [] t2 (proj1 I2) At) as (s & Hs & C).
           destruct (base_sat s) with (t := t2) as [x Hx]; auto.
           { simpl in Hs. injection Hs as <-. apply (wf_leaves _ (proj1 I2)). }
           apply (weight_pos_base t2 x Pt) in Hx. specialize (W x). rewrite Gn in W. simpl in W. rewrite Rmult_1_r in W. apply Rmult_integral in W. lra.
        -- inversion F; subst. specialize (W (fun _ => false)). rewrite Gn in W. simpl in W. lra.
    + cbn [bind]. destruct (IH (Some c) z m I) as (r & z' & m' & E & I' & X & S' & N').
      { split; auto. }
      exists r, z', m'. split; [exact E|]. split; [exact I'|]. split; [exact X|]. split; [exact S'|]. congruence.
Qed.
Theorem compile_network_spec ords srt fs m : (forall a b c, Permutation (ords a b c) c) -> sorts srt -> Inv 0%N m ->
  (forall v, In v (leaves (m_vt m)) -> v <> 0%N) -> Forall (good_factor (m_vt m)) fs -> Forall nonzero fs -> fs <> [] ->
  exists r z m', compile_network ords srt fs m = Ok (r, z, m') /\ Inv 0%N m' /\ mext 0%N m m' /\
    outcome m' r z (network_value val fs) (2 <= length fs)%nat /\
    (forall F, fs = [F] -> forall x, val z = sum_over (f_scope F) (factor_value val F) x).
Proof.
  intros HO HS I NZ G N NE. unfold compile_network.
  destruct (load_factors_spec ords HO fs 0%nat pone m I NZ G N) as (nodes & z1 & m1 & E1 & I1 & X1 & EL & PS & SG).
  { rewrite (val_one HP). lra. }
  rewrite E1. cbn [bind fst snd].
  destruct (compilation_order_spec srt m1 fs nodes) as (order & Eo & PO).
  { intros. apply HS. }
  { rewrite (me_vt _ _ _ X1). exact G. }
  rewrite Eo. cbn [bind].
  apply (pstate_ext _ _ _ _ (network_value val fs)) in PS; [|intros x; rewrite (val_one HP); ring].
  apply (pstate_perm _ _ _ _ _ (Permutation_sym PO)) in PS.
  assert (length order = length fs) as ELo by (rewrite (Permutation_length PO); auto).
  destruct order as [|c order]; [destruct fs; simpl in ELo; congruence|].
  cbn [foldM seq_step bind].
  destruct (seq_loop (network_value val fs) order (Some c) z1 m1 I1) as (r & z & m2 & E2 & I2 & X2 & S2 & N2).
  { pose proof (pstate_holds _ _ _ _ PS) as PH. inversion PH as [|? ? P1 P2]; subst. split; auto. }
  unfold seq_step at 1. cbn [bind]. exists r, z, m2. split; [exact E2|]. split; auto. split; [eapply mext_trans; eauto|]. split.
  - destruct S2 as (_ & _ & [S2|S2]); [|right; auto].
    destruct order as [|c' order].
    + cbn [foldM] in E2. injection E2 as <- <- <-. left. destruct S2 as (Z & ts & F & W).
      inversion F as [|? t ? ts' Ht F']; subst. inversion F'; subst. exists c, t. split; auto. split; auto. split; auto.
      split; [intros x; rewrite <- W; simpl; ring|]. simpl in ELo. lia.
    + destruct N2 as [(i & -> & t & Ht & Nt)|N2]; try discriminate; [|right; auto]. left.
      destruct S2 as (Z & ts & F & W). inversion F as [|? t' ? ts' Ht' F']; subst. inversion F'; subst.
      assert (t' = t) as -> by (eapply (Rep_fun val); [apply Ht'|apply Ht]).
      exists i, t. split; auto. split; auto. split; auto. split; auto. intros x; rewrite <- W; simpl; ring.
  - intros F EF x. subst fs. simpl in ELo. destruct order as [|? ?]; [|simpl in ELo; lia]. cbn [foldM] in E2. injection E2 as <- <- <-.
    rewrite (SG F eq_refl x), (val_one HP). ring.
Qed.

(** ** The queue *)
Lemma mapM_get_some {A} (l : list A) : mapM get (map Some l) = Ok l.
Proof. induction l as [|a l IH]; simpl; auto. rewrite IH. reflexivity. Qed.
Lemma gc_step (m : mgr) queue z g : Inv 0%N m -> pstate m queue z g -> exists m', DeleteUnusedPsddNodes m queue = Ok m' /\
  Inv 0%N m' /\ hext m m' /\ pstate m' queue z g /\ (forall i, In i queue -> norm_at m i -> norm_at m' i).
Proof.
  intros I PS. pose proof (pstate_holds _ _ _ _ PS) as PH. rewrite Forall_forall in PH.
  destruct (gc_spec m queue (proj1 I)) as (m' & E & EV & EH & EL).
  { intros u Hu. destruct (PH u Hu) as (t & _ & _ & _ & L). apply (wf_range _ (proj1 I)), L. }
  assert (forall i t, In i queue -> holds m i t -> holds m' i t) as HH.
  { intros i t Hi (A & B & C & D). split; [unfold RepProofs.node_at; rewrite EH; exact A|]. split; auto. split; auto. apply EL. split; auto.
    exists i. split; auto. constructor. }
  exists m'. split; auto. split; [|split; [|split]].
  - split; [eapply gc_wf; eauto; apply I|]. intros i nd v pt pf Hi En Ef Eb. rewrite EH in En. eapply (proj2 I); eauto. apply EL, Hi.
  - split; auto. exists []. rewrite app_nil_r. auto.
  - destruct PS as (Z & ts & F & W). split; auto. exists ts. split; auto. eapply Forall2_impl_in; [|exact F]. intros a b Ha _ Hab. apply HH; auto.
  - intros i Hi (t & Ht & Nt). exists t. split; auto.
Qed.
Lemma queue_spec gc g : gc <> 0%N -> (exists x, g x <> 0) -> forall fuel queue proc z m, (length queue <= S fuel)%nat -> queue <> [] ->
  Inv 0%N m -> pstate m queue z g ->
  exists i z' m', queue_loop fuel gc (map Some queue) proc z m = Ok ([Some i], z', m') /\ Inv 0%N m' /\ hext m m' /\ pstate m' [i] z' g /\
    ((2 <= length queue)%nat -> norm_at m' i).
Proof.
  intros HG (x0 & Hx0). induction fuel as [|f IH]; intros queue proc z m HL NE I PS.
  - destruct queue as [|a [|b queue]]; [congruence| |simpl in HL; lia]. cbn [queue_loop map]. exists a, z, m.
    split; auto. split; auto. split; [apply hext_refl|]. split; auto. simpl. lia.
  - destruct queue as [|a [|b queue]]; [congruence| |].
    { cbn [queue_loop map]. exists a, z, m. split; auto. split; auto. split; [apply hext_refl|]. split; auto. simpl. lia. }
    cbn [queue_loop map get bind].
    destruct (mult_step m a b queue z g I PS) as (r & m1 & E1 & I1 & X1 & M). rewrite E1. cbn [bind].
    destruct (fst r) as [c|] eqn:Er; [|exfalso; apply Hx0, M].
    destruct M as [PS1 N1]. apply N.eqb_neq in HG as HG'. rewrite HG'. clear HG'. cbn [bind].
    apply (pstate_perm _ _ (queue ++ [c])) in PS1; [|apply Permutation_cons_append].
    assert (map Some queue ++ [Some c] = map Some (queue ++ [c])) as EM by (rewrite map_app; auto). rewrite EM.
    assert (exists m2, (if N.eqb ((proc + 1) mod gc)%N 0%N then do used <- mapM get (map Some (queue ++ [c])) ;; DeleteUnusedPsddNodes m1 used else Ok m1) = Ok m2 /\
      Inv 0%N m2 /\ hext m1 m2 /\ pstate m2 (queue ++ [c]) (pmul z (snd r)) g /\ norm_at m2 c) as (m2 & E2 & I2 & X2 & PS2 & N2).
    { destruct (N.eqb _ 0).
      - rewrite mapM_get_some. cbn [bind]. destruct (gc_step m1 (queue ++ [c]) _ g I1 PS1) as (m2 & E2 & I2 & X2 & PS2 & N2).
        exists m2. split; auto. split; auto. split; auto. split; auto. apply N2; auto. apply in_app_iff. right; left; auto.
      - exists m1. split; auto. split; auto. split; [apply hext_refl|]. auto. }
    rewrite E2. cbn [bind].
    destruct (IH (queue ++ [c]) (proc + 1)%N (pmul z (snd r)) m2) as (i & z' & m3 & E3 & I3 & X3 & PS3 & N3); auto.
    { rewrite app_length. simpl in *. lia. }
    { destruct queue; discriminate. }
    exists i, z', m3. split; auto. split; auto. split; [eapply hext_trans; [eapply mext_hext; eauto|]; eapply hext_trans; eauto|]. split; auto.
    intros _. destruct queue as [|q1 queue]; [|apply N3; rewrite app_length; simpl; lia].
    cbn [app map queue_loop] in E3. destruct f; cbn [queue_loop] in E3; injection E3 as <- <- <-; exact N2.
Qed.
Lemma network_nonzero fs x : network_value val fs x <> 0 -> Forall nonzero fs.
Proof.
  induction fs as [|F fs IH]; simpl; intros H; constructor.
  - exists x. intros E. apply H. rewrite E. ring.
  - apply IH. intros E. apply H. rewrite E. ring.
Qed.
Theorem compile_network_dc_spec ords srt gc fs m : (forall a b c, Permutation (ords a b c) c) -> sorts srt -> Inv 0%N m ->
  (forall v, In v (leaves (m_vt m)) -> v <> 0%N) -> Forall (good_factor (m_vt m)) fs -> fs <> [] -> gc <> 0%N ->
  (exists x, network_value val fs x <> 0) ->
  exists i z m' t, compile_network_dc ords srt gc fs m = Ok (Some i, z, m') /\ Inv 0%N m' /\ hext m m' /\ holds m' i t /\ 0 < val z /\
    (forall x, weight t x * val z = network_value val fs x) /\ ((2 <= length fs)%nat -> normalized t) /\
    (forall F, fs = [F] -> forall x, val z = sum_over (f_scope F) (factor_value val F) x).
Proof.
  intros HO HS I NZ G NE HG (x0 & Hx0). unfold compile_network_dc.
  destruct (load_factors_spec ords HO fs 0%nat pone m I NZ G (network_nonzero _ _ Hx0)) as (nodes & z1 & m1 & E1 & I1 & X1 & EL & PS & SG).
  { rewrite (val_one HP). lra. }
  rewrite E1. cbn [bind fst snd].
  destruct (compilation_order_spec srt m1 fs nodes) as (order & Eo & PO).
  { intros. apply HS. }
  { rewrite (me_vt _ _ _ X1). exact G. }
  rewrite Eo. cbn [bind].
  apply (pstate_ext _ _ _ _ (network_value val fs)) in PS; [|intros x; rewrite (val_one HP); ring].
  apply (pstate_perm _ _ _ _ _ (Permutation_sym PO)) in PS.
  assert (length order = length fs) as ELo by (rewrite (Permutation_length PO); auto).
  assert (order <> []) as NEo by (intros ->; destruct fs; simpl in ELo; congruence).
  destruct (queue_spec gc (network_value val fs) HG (ex_intro _ x0 Hx0) (length order) order 0%N z1 m1) as (i & z & m2 & E2 & I2 & X2 & PS2 & N2); auto.
  rewrite E2. cbn [bind fst snd hd_error get]. destruct PS2 as (Z & ts & F & W).
  inversion F as [|? t ? ts' Ht F']; subst. inversion F'; subst.
  exists i, z, m2, t. split; auto. split; auto. split; [eapply hext_trans; [eapply mext_hext; eauto|]; auto|]. split; auto. split; auto.
  split; [intros x; rewrite <- W; simpl; ring|]. split.
  - intros H2. destruct N2 as (t' & Ht' & Nt'); [lia|]. assert (t = t') as -> by (eapply (Rep_fun val); [apply Ht|apply Ht']). auto.
  - intros F0 EF x. subst fs. simpl in ELo. destruct order as [|o1 [|? ?]]; simpl in ELo; try lia. cbn [queue_loop map length] in E2. injection E2 as <- <- <-.
    rewrite (SG F0 eq_refl x), (val_one HP). ring.
Qed.

(** ** compile_network_with_vtree *)
Definition items (root : vtree) (at_pos : list (nat * nat)) (vs : list (path * vtree)) : list nat :=
  flat_map (fun v => map snd (filter (fun x => Nat.eqb (fst x) (vpos root (fst v))) at_pos)) vs.
Lemma bucket_loop_spec g : (exists x, g x <> 0) -> forall nodes a rest proc z m, Inv 0%N m -> pstate m (a :: nodes ++ rest) z g ->
  exists c proc' z' m', bucket_loop nodes (Some a) proc z m = Ok (Some c, proc', z', m') /\ Inv 0%N m' /\ mext 0%N m m' /\
    pstate m' (c :: rest) z' g /\ ((nodes = [] /\ c = a /\ z' = z) \/ (nodes <> [] /\ norm_at m' c)).
Proof.
  intros (x0 & Hx0). induction nodes as [|b nodes IH]; intros a rest proc z m I PS; cbn [bucket_loop].
  - exists a, proc, z, m. split; auto. split; auto. split; [apply mext_refl|]. split; auto.
  - destruct (mult_step m a b (nodes ++ rest) z g I PS) as (r & m1 & E1 & I1 & X1 & M). rewrite E1. cbn [bind].
    destruct (fst r) as [c|]; [|exfalso; apply Hx0, M]. destruct M as [PS1 N1].
    destruct (IH c rest (proc + 1)%N (pmul z (snd r)) m1 I1 PS1) as (d & proc' & z' & m' & E & I' & X' & PS' & CS).
    exists d, proc', z', m'. split; auto. split; auto. split; [eapply mext_trans; eauto|]. split; auto. right. split; [discriminate|].
    destruct CS as [(-> & -> & ->)|[_ CS]]; auto. cbn [bucket_loop] in E. injection E as _ <-. exact N1.
Qed.
Definition tally (m : mgr) (out : list nat) (cnt : nat) (z z0 : P) : Prop :=
  (length out <= cnt)%nat /\ (out = [] -> cnt = 0%nat) /\ (forall c, out = [c] -> (cnt <= 1)%nat \/ norm_at m c) /\ ((cnt <= 1)%nat -> z = z0).
Lemma norm_at_mext fl m m' c : mext fl m m' -> norm_at m c -> norm_at m' c.
Proof. intros X (t & H & N). exists t. split; auto. eapply holds_mext; eauto. Qed.
Lemma buckets_spec root at_pos g z0 : (exists x, g x <> 0) -> forall vs out cnt proc z m, Inv 0%N m -> pstate m (out ++ items root at_pos vs) z g ->
  tally m out cnt z z0 ->
  exists out' proc' z' m', foldM (bucket_step root at_pos) vs (map Some out, proc, z, m) = Ok (map Some out', proc', z', m') /\
    Inv 0%N m' /\ mext 0%N m m' /\ pstate m' out' z' g /\ tally m' out' (cnt + length (items root at_pos vs)) z' z0.
Proof.
  intros Hg. induction vs as [|v vs IH]; intros out cnt proc z m I PS T; cbn [foldM].
  - exists out, proc, z, m. simpl in *. rewrite app_nil_r in PS. rewrite Nat.add_0_r. split; auto. split; auto. split; [apply mext_refl|]. auto.
  - unfold bucket_step at 1. unfold items in PS |- *. cbn [flat_map] in PS |- *. fold (items root at_pos vs) in PS |- *.
    destruct (map snd (filter _ at_pos)) as [|a nodes].
    + cbn [bind]. apply IH; auto.
    + cbn [bucket_loop].
      apply (pstate_perm _ _ (a :: nodes ++ (out ++ items root at_pos vs))) in PS.
      2:{ rewrite app_assoc. change (a :: nodes ++ out ++ items root at_pos vs) with ((a :: nodes) ++ (out ++ items root at_pos vs)).
          rewrite (app_assoc (a :: nodes)). apply Permutation_app_tail, Permutation_app_comm. }
      destruct (bucket_loop_spec g Hg nodes a _ proc z m I PS) as (c & proc1 & z1 & m1 & E1 & I1 & X1 & PS1 & CS).
      rewrite E1. cbn [bind]. rewrite <- (map_app Some out [c]) || change [Some c] with (map Some [c]); rewrite <- map_app.
      destruct (IH (out ++ [c]) (cnt + length (a :: nodes))%nat proc1 z1 m1) as (out' & proc' & z' & m' & E & I' & X' & PS' & T'); auto.
      { eapply pstate_perm; [|exact PS1]. rewrite <- app_assoc. apply Permutation_middle. }
      { destruct T as (T0 & T1 & T2 & T3). split; [rewrite app_length; simpl in *; lia|]. split; [|split].
        - intros E. destruct out; discriminate.
        - intros d E. destruct out as [|o out]; [|destruct out; discriminate]. injection E as <-. rewrite (T1 eq_refl).
          destruct CS as [(-> & -> & ->)|[_ CS]]; auto.
        - intros L. destruct CS as [(-> & -> & ->)|[NE _]]; [apply T3; simpl in L; lia|]. destruct nodes; [congruence|simpl in L; lia]. }
      exists out', proc', z', m'. split; auto. split; auto. split; [eapply mext_trans; eauto|]. split; auto.
      rewrite app_length. rewrite Nat.add_assoc. exact T'.
Qed.
Lemma NoDup_map_in {A B} (f : A -> B) (l : list A) : (forall a b, In a l -> In b l -> f a = f b -> a = b) -> NoDup l -> NoDup (map f l).
Proof.
  intros H ND. induction ND as [|a l NI ND IH]; simpl; constructor.
  - intros Hc. apply in_map_iff in Hc as (b & E & Hb). apply NI. rewrite (H a b); auto; [left; auto|right; auto].
  - apply IH. intros x y Hx Hy. apply H; right; auto.
Qed.
Lemma filter_flat_perm {A} (f : A -> nat) (L : list A) ks : NoDup ks -> (forall x, In x L -> In (f x) ks) ->
  Permutation (flat_map (fun k => filter (fun x => Nat.eqb (f x) k) L) ks) L.
Proof.
  intros ND. induction L as [|x L IH]; intros H.
  - induction ks; simpl; auto. apply IHks; [inversion ND; auto|contradiction].
  - transitivity (x :: flat_map (fun k => filter (fun x0 => Nat.eqb (f x0) k) L) ks); [|apply perm_skip, IH; intros; apply H; right; auto]. clear IH. specialize (H x (or_introl eq_refl)). revert H.
    induction ND as [|k ks NI ND IHk]; intros H; [contradiction|]. simpl. destruct (Nat.eqb_spec (f x) k) as [E|E].
    + simpl. constructor. apply Permutation_app_head. replace (flat_map (fun k0 => if Nat.eqb (f x) k0 then x :: filter (fun x0 => Nat.eqb (f x0) k0) L else filter (fun x0 => Nat.eqb (f x0) k0) L) ks)
        with (flat_map (fun k0 => filter (fun x0 => Nat.eqb (f x0) k0) L) ks); auto.
      clear - E NI. induction ks as [|k' ks IH]; simpl; auto. rewrite IH by (intros Hc; apply NI; right; auto).
      destruct (Nat.eqb_spec (f x) k') as [E'|E']; auto. exfalso. apply NI. left. congruence.
    + destruct H as [H|H]; [congruence|]. rewrite (IHk H). apply Permutation_sym, Permutation_middle.
Qed.
Lemma items_perm root ser at_pos : Permutation ser (nodes [] root) -> (forall x, In x at_pos -> exists p s, subtree root p = Some s /\ fst x = vpos root p) ->
  Permutation (items root at_pos (rev ser)) (map snd at_pos).
Proof.
  intros PS H. set (ks := map (fun v => vpos root (fst v)) (rev ser)).
  assert (items root at_pos (rev ser) = map snd (flat_map (fun k => filter (fun x => Nat.eqb (fst x) k) at_pos) ks)) as ->.
  { unfold items, ks. clear. induction (rev ser) as [|v vs IH]; simpl; auto. rewrite IH, map_app. auto. }
  apply Permutation_map, filter_flat_perm.
  - unfold ks. rewrite map_rev. apply NoDup_rev. eapply Permutation_NoDup; [apply Permutation_map, Permutation_sym, PS|].
    apply NoDup_map_in; [|eapply NoDup_map_inv, (ser_nodup [] root (nodes [] root)), Permutation_refl].
    intros [p s] [q s'] Hp Hq E. simpl in E. apply nodes_root in Hp. apply nodes_root in Hq.
    assert (p = q) as <- by (eapply vpos_inj; eauto). congruence.
  - intros x Hx. destruct (H x Hx) as (p & s & Hp & ->). unfold ks. apply in_map_iff. exists (p, s). split; auto. apply in_rev. rewrite rev_involutive.
    eapply Permutation_in; [apply Permutation_sym, PS|]. apply nodes_root. auto.
Qed.
Lemma attach_spec root (F : factor P) : good_factor root F -> exists p s, subtree root p = Some s /\ attach root F = Ok (vpos root p).
Proof.
  intros [_ NE G _ _ _]. unfold attach.
  assert (exists ps, mapM (fun v => do p <- get (leaf_path root v) ;; Ok (vpos root p)) (f_scope F) = Ok ps /\ length ps = length (f_scope F) /\
    Forall (fun k => exists p s, subtree root p = Some s /\ k = vpos root p) ps) as (ps & E & EL & FP).
  { clear NE. induction (f_scope F) as [|v vs IH]; [exists []; simpl; auto|]. cbn [mapM].
    pose proof (leaf_path_spec root v) as S. destruct (leaf_path root v) as [p|].
    - cbn [get bind]. destruct IH as (ps & E & EL & FP); [intros w Hw; apply G; right; auto|]. rewrite E. cbn [bind].
      exists (vpos root p :: ps). split; auto. split; [simpl; auto|]. constructor; eauto.
    - exfalso. apply S, G. left; auto. }
  rewrite E. cbn [bind]. destruct ps as [|k ps]; [destruct (f_scope F); simpl in EL; congruence|].
  inversion FP as [|? ? K1 K2]; subst. clear - K1 K2. revert k K1. induction K2 as [|k' ps K K2 IH]; intros k K1; cbn [fold_left].
  - destruct K1 as (p & s & H & ->). eauto.
  - apply IH. destruct (Nat.ltb k' k); auto.
Qed.
Theorem compile_network_with_vtree_spec ords gc fs m : (forall a b c, Permutation (ords a b c) c) -> Inv 0%N m ->
  (forall v, In v (leaves (m_vt m)) -> v <> 0%N) -> Forall (good_factor (m_vt m)) fs -> fs <> [] -> gc <> 0%N ->
  (exists x, network_value val fs x <> 0) ->
  exists i z m' t, compile_network_with_vtree ords gc fs m = Ok (Some i, z, m') /\ Inv 0%N m' /\ hext m m' /\ holds m' i t /\ 0 < val z /\
    (forall x, weight t x * val z = network_value val fs x) /\ ((2 <= length fs)%nat -> normalized t) /\
    (forall F, fs = [F] -> forall x, val z = sum_over (f_scope F) (factor_value val F) x).
Proof.
  intros HO I NZ G NE HG Hx. pose proof Hx as (x0 & Hx0). unfold compile_network_with_vtree.
  destruct (serialize_vtree_spec [] (m_vt m)) as (ser & Es & PSer & _). rewrite Es. cbn [bind].
  destruct (load_factors_spec ords HO fs 0%nat pone m I NZ G (network_nonzero _ _ Hx0)) as (nodes & z1 & m1 & E1 & I1 & X1 & EL & PS & SG).
  { rewrite (val_one HP). lra. }
  rewrite E1. cbn [bind fst snd].
  assert (exists ps, mapM (attach (m_vt m)) fs = Ok ps /\ length ps = length fs /\
    Forall (fun k => exists p s, subtree (m_vt m) p = Some s /\ k = vpos (m_vt m) p) ps) as (ps & Ep & ELp & FP).
  { clear - G. induction G as [|F fs G1 G2 IH]; [exists []; simpl; auto|]. cbn [mapM].
    destruct IH as (ps & E & EL & FP). destruct (attach_spec _ F G1) as (p & s & Hp & ->). cbn [bind]. rewrite E. cbn [bind]. exists (vpos (m_vt m) p :: ps). split; auto. split; [simpl; auto|].
    constructor; eauto. }
  rewrite Ep. cbn [bind].
  apply (pstate_ext _ _ _ _ (network_value val fs)) in PS; [|intros x; rewrite (val_one HP); ring].
  assert (Permutation (items (m_vt m) (combine ps nodes) (rev ser)) nodes) as PI.
  { rewrite items_perm; auto.
    - replace (map snd (combine ps nodes)) with nodes; auto. assert (length ps = length nodes) as Q by congruence. clear - Q. revert nodes Q.
      induction ps as [|p ps IH]; intros [|n nodes]; simpl; intros; try discriminate; auto. f_equal. apply IH. congruence.
    - intros [k n] Hk. apply in_combine_l in Hk. rewrite Forall_forall in FP. simpl. apply FP, Hk. }
  destruct (buckets_spec (m_vt m) (combine ps nodes) (network_value val fs) z1 Hx (rev ser) [] 0%nat 0%N z1 m1 I1) as (out & proc & z2 & m2 & E2 & I2 & X2 & PS2 & T2).
  { eapply pstate_perm; [apply Permutation_sym, PI|]. auto. }
  { split; [simpl; lia|]. split; [auto|]. split; [discriminate|auto]. }
  cbn [map] in E2. rewrite E2. cbn [bind].
  rewrite (Permutation_length PI), EL in T2. simpl in T2. destruct T2 as (T20 & T21 & T22 & T23).
  assert (out <> []) as NEo.
  { intros E. specialize (T21 E). destruct fs; [congruence|discriminate]. }
  destruct (queue_spec gc (network_value val fs) HG Hx (length out) out proc z2 m2) as (i & z & m3 & E3 & I3 & X3 & PS3 & N3); auto.
  rewrite map_length, E3. cbn [bind fst snd hd_error get]. destruct PS3 as (Z & ts & F & W).
  inversion F as [|? t ? ts' Ht F']; subst. inversion F'; subst.
  exists i, z, m3, t. split; auto. split; auto.
  split; [eapply hext_trans; [eapply mext_hext; exact X1|]; eapply hext_trans; [eapply mext_hext; exact X2|exact X3]|]. split; auto. split; auto.
  split; [intros x; rewrite <- W; simpl; ring|]. split.
  - intros H2. assert (norm_at m3 i) as (t' & Ht' & Nt').
    { destruct out as [|c [|c2 out]]; [congruence| |apply N3; simpl; lia].
      destruct (T22 c eq_refl) as [L|N]; [lia|]. cbn [queue_loop map length] in E3. injection E3 as <- <- <-. exact N. }
    assert (t = t') as -> by (eapply (Rep_fun val); [apply Ht|apply Ht']). auto.
  - intros F0 EF x. subst fs. rewrite (T23 (le_n 1)) in *.
    destruct out as [|c [|c2 out]]; [congruence| |].
    + cbn [queue_loop map length] in E3. injection E3 as <- <- <-. rewrite (SG F0 eq_refl x), (val_one HP). ring.
    + exfalso. simpl in T20. lia.
Qed.
End Net.
