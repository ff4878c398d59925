(** The PSDD of a factor over n variables has at most 2^(n-1) nodes at a vtree node (C96). *)
From Coq Require Import Reals.
From Verif Require Import Base Param ParamProofs Vtree VtreeProofs Spec Heap Manager HeapProofs SerProofs RepProofs OrderProofs CanonProofs MulProofs ProductNodes IOProofs Pgm PgmLayout SizeProofs SizeAtProofs SizeNet SizeTrue.
Local Open Scope nat_scope.

Section SizeCut.
Context {P : pops} {val : P -> R} (HP : pexact P val).
Notation heap := (heap P). Notation mgr := (mgr P). Notation node := (node P).
Let Hr : forall a : P, peq a a = true := val_peq_refl val HP.
Let Hi : forall a : P, plt a a = false := val_plt_irrefl val HP.

(** At most [n] nodes below [i] at each vtree node *)
Definition few (m : mgr) (n i : nat) : Prop := i < length (m_heap m) /\
  forall p L, NoDup L -> (forall j, In j L -> reach (m_heap m) i j /\ vt_of (m_heap m) j = Some p) -> length L <= n.
Lemma few_ext fl (m m' : mgr) n i : Wf m -> mext fl m m' -> few m n i -> few m' n i.
Proof.
  intros W X [Li H]. destruct (me_heap _ _ _ X) as (l & EH & _). unfold few. rewrite EH. split; [rewrite app_length; lia|]. intros p L ND K. apply (H p L ND).
  intros j I. destruct (K j I) as [R V]. destruct (reach_back _ _ _ _ (heap_ok_closed _ _ (wf_heap _ W)) R Li) as [R' L']. split; auto. unfold vt_of in *. rewrite nth_error_app1 in V; auto.
Qed.
Lemma few_le (m : mgr) n n' i : few m n i -> n <= n' -> few m n' i.
Proof. intros [L H] K. split; auto. intros p L' ND A. specialize (H p L' ND A). lia. Qed.
Lemma one_same (L : list nat) i : NoDup L -> (forall j, In j L -> j = i) -> length L <= 1.
Proof. intros ND H. destruct L as [|a [|b L]]; cbn; try lia. exfalso. assert (a = b) by (rewrite (H a), (H b); cbn; auto). subst. inversion ND as [|? ? N _]. apply N. left. auto. Qed.
Lemma tru_few (m : mgr) i : Wf m -> tru (val := val) m i -> few m 1 i.
Proof.
  intros W T. split; [destruct T as [? ? ? ? ? E|? ? ? E]; apply nth_error_Some; congruence|]. intros p L ND H. destruct L as [|a L]; [cbn; lia|]. apply (one_same _ a); auto.
  intros j I. destruct (H a (or_introl eq_refl)) as [Ra Va], (H j I) as [Rj Vj]. apply (tru_unique HP m j W (tru_reach _ _ _ Rj T) a p); auto. eapply tru_reach; eauto.
Qed.
Lemma leaf_few (m m' : mgr) nd i : Wf m -> node_ok (m_vt m) (m_heap m) (length (m_heap m)) nd -> (match n_body nd with BDec _ => False | _ => True end) -> GetUniqueNode m nd = (i, m') -> few m' 1 i.
Proof.
  intros W N B E. destruct (unique_body HP m nd i m' W N E) as (W' & X & L & nd' & D1 & _ & _ & D4). split; [apply (wf_range _ W'); auto|].
  intros p L' ND H. apply (one_same _ i); auto. intros j I. destruct (H j I) as [R _]. inversion R as [|? nd2 c ? E2 Ic R2]; subst; auto. exfalso. assert (nd2 = nd') as -> by congruence.
  unfold children in Ic. destruct (n_body nd); destruct (n_body nd'); contradiction.
Qed.
Lemma literal_few (m : mgr) l i m' : Wf m -> GetPsddLiteralNode m l 0 = Ok (i, m') -> few m' 1 i.
Proof.
  intros W E. unfold GetPsddLiteralNode in E. fold (lit_var l) in E. pose proof (leaf_path_spec (m_vt m) (lit_var l)) as SP. destruct (leaf_path (m_vt m) (lit_var l)) as [p|] eqn:LP; [|discriminate]. cbn [get bind] in E. injection E as E.
  apply (leaf_few m m' (MkN p 0%N (BLit l)) i); auto; cbn; auto.
Qed.
Lemma top_few (m : mgr) v a b i m' : Wf m -> GetPsddTopNode m v 0 a b = Ok (i, m') -> few m' 1 i.
Proof.
  intros W E. unfold GetPsddTopNode in E. pose proof (leaf_path_spec (m_vt m) v) as SP. destruct (leaf_path (m_vt m) v) as [p|] eqn:LP; [|discriminate]. cbn [get bind] in E. injection E as E.
  apply (leaf_few m m' (MkN p 0%N (BTop v a b)) i); auto; cbn; auto.
Qed.
Lemma few_union (m : mgr) p : Wf m -> forall cs ns, Forall2 (few m) ns cs -> forall L, NoDup L -> (forall j, In j L -> vt_of (m_heap m) j = Some p /\ exists c, In c cs /\ reach (m_heap m) c j) -> length L <= list_sum ns.
Proof.
  intros W cs ns F. induction F as [|n c ns cs [Lc H] F IH]; intros L ND K.
  - destruct L as [|j L]; auto. destruct (K j (or_introl eq_refl)) as (_ & c & [] & _).
  - destruct (serialize_root _ _ c (wf_heap _ W) Lc) as (Ls & SL). set (f := fun j => if in_dec Nat.eq_dec j Ls then true else false).
    assert (SP : length L = length (filter f L) + length (filter (fun j => negb (f j)) L)) by (clear; induction L as [|a L IH]; cbn; auto; destruct (f a); cbn; lia).
    rewrite SP. change (list_sum (n :: ns)) with (n + list_sum ns). apply Nat.add_le_mono.
    + apply (H p); [apply NoDup_filter; auto|]. intros j I. apply filter_In in I as [I Q]. unfold f in Q. destruct (in_dec Nat.eq_dec j Ls) as [IL|]; [|discriminate]. split; [apply (so_in _ _ _ SL); auto|apply (K j I)].
    + apply IH; [apply NoDup_filter; auto|]. intros j I. apply filter_In in I as [I Q]. destruct (K j I) as (V & c' & [<-|Ic] & R); [|split; eauto].
      unfold f in Q. apply (so_in _ _ _ SL) in R. destruct (in_dec Nat.eq_dec j Ls); [discriminate|contradiction].
Qed.
Lemma cons_app_neq (b b' : bool) (p u u' : path) : u ++ b :: p = u' ++ b' :: p -> b = b'.
Proof.
  intros E. apply (f_equal (@rev bool)) in E. rewrite !rev_app_distr in E. cbn [rev] in E. rewrite <- !app_assoc in E. apply app_inv_head in E. cbn in E. congruence.
Qed.
Lemma dec_few (m : mgr) p ps ss ws i m' ns ks : Wf m -> (exists l r, subtree (m_vt m) p = Some (VNode l r)) -> ps <> [] ->
  Forall (fun c => vt_of (m_heap m) c = Some (false :: p)) ps -> Forall (fun c => vt_of (m_heap m) c = Some (true :: p)) ss ->
  Forall2 (few m) ns ps -> Forall2 (few m) ks ss -> new_dec m p 0 ps ss ws = Ok (i, m') -> few m' (Nat.max 1 (Nat.max (list_sum ns) (list_sum ks))) i.
Proof.
  intros W HV NE F1 F2 A1 A2 E. destruct (new_dec_wf Hr Hi m p 0%N ps ss ws i m' W HV NE F1 F2 E) as (W' & X & L & V & es & nd' & M & D1 & _ & _ & _ & Q).
  apply (equiv_sim val HP) in Q. cbn [n_body] in Q. unfold body_sim in Q. destruct (n_body nd') as [| |es'] eqn:B; try contradiction.
  assert (CH : forall j, reach (m_heap m') i j -> i = j \/ exists b c, In c (if b : bool then ss else ps) /\ reach (m_heap m') c j).
  { intros j R. inversion R as [|? nd2 c ? E2 Ic R2]; subst; auto. right. assert (nd2 = nd') as -> by congruence. apply in_children in Ic as (es2 & e' & B2 & Ie & J). rewrite B in B2. injection B2 as <-.
    assert (exists e, In e (sort_elems es) /\ elem_same val e e') as (e & Ie2 & (Q1 & Q2 & _)).
    { clear - Q Ie. induction Q as [|e e0 l l' HE Q IH]; [destruct Ie|]. destruct Ie as [<-|Ie]; [exists e; split; [left|]; auto|]. destruct (IH Ie) as (x & A & B). exists x. split; [right|]; auto. }
    apply (Permutation_in _ (sort_elems_perm es)) in Ie2. destruct (mk_elems_in _ _ _ _ _ _ M Ie2) as [P1 P2].
    destruct J as [->| ->]; [exists false, (e_prime e')|exists true, (e_sub e')]; split; auto; congruence. }
  assert (G : forall b : bool, Forall2 (few m') (if b then ks else ns) (if b then ss else ps) /\ Forall (fun c => vt_of (m_heap m') c = Some (b :: p)) (if b then ss else ps)).
  { intros b. split; [destruct b; [clear - A2 W X|clear - A1 W X]|].
    - induction A2; constructor; auto. eapply few_ext; eauto.
    - induction A1; constructor; auto. eapply few_ext; eauto.
    - destruct b; [eapply Forall_impl; [|exact F2]|eapply Forall_impl; [|exact F1]]; intros c Vc; eapply mext_vt; eauto. }
  assert (PB : forall b c j, In c (if b : bool then ss else ps) -> reach (m_heap m') c j -> exists u, vt_of (m_heap m') j = Some (u ++ b :: p)).
  { intros b c j Ic R. destruct (G b) as [_ GV]. rewrite Forall_forall in GV. exact (reach_vt _ _ (wf_heap _ W') _ _ R _ (GV c Ic)). }
  split; [apply (wf_range _ W'); auto|]. intros q L' ND H. destruct L' as [|j0 L']; [cbn; lia|]. destruct (H j0 (or_introl eq_refl)) as [R0 V0].
  destruct (CH j0 R0) as [<-|(b & c & Ic & Rc)].
  - assert (q = p) as -> by congruence. enough (length (i :: L') <= 1) by lia. apply (one_same _ i); auto. intros j I. destruct (H j I) as [R Vj]. destruct (CH j R) as [|(b & c & Ic & Rc)]; auto.
    exfalso. destruct (PB b c j Ic Rc) as (u & Vu). rewrite Vj in Vu. injection Vu as Vu. apply (f_equal (@length bool)) in Vu. rewrite app_length in Vu. cbn in Vu. lia.
  - destruct (PB b c j0 Ic Rc) as (u & Vu). rewrite V0 in Vu. injection Vu as ->.
    enough (length (j0 :: L') <= list_sum (if b then ks else ns)) by (destruct b; lia). destruct (G b) as [GF _]. apply (few_union m' (u ++ b :: p) W' _ _ GF); auto.
    intros j I. destruct (H j I) as [R Vj]. split; auto. destruct (CH j R) as [<-|(b' & c' & Ic' & Rc')].
    + exfalso. rewrite V in Vj. injection Vj as Vj. apply (f_equal (@length bool)) in Vj. rewrite app_length in Vj. cbn in Vj. lia.
    + destruct (PB b' c' j Ic' Rc') as (u' & Vu'). rewrite Vj in Vu'. injection Vu' as Vu'. apply cons_app_neq in Vu'. subst b'. eauto.
Qed.
Lemma norm_few n N : 1 <= N -> forall fuel target cur tm (m : mgr) i tm' m', Wf m -> tm_wf tm m -> tm_tru (val := val) tm m -> few m N cur ->
  norm_loop (get_true n) fuel target 0 cur tm m = Ok (i, tm', m') -> few m' N i /\ tm_tru (val := val) tm' m'.
Proof.
  intros HN. induction fuel as [|f IH]; intros target cur tm m i tm' m' W T TT C E; cbn [norm_loop] in E; [discriminate|].
  destruct (nth_error (m_heap m) cur) as [nd|] eqn:En; [|discriminate]. cbn [get bind] in E. pose proof (node_ok_valid _ _ _ _ (wf_heap _ W _ _ En)) as (sc & Sc).
  destruct (opath_eqb (n_vt nd) target); [injection E as <- <- <-; auto|].
  assert (Vc : vt_of (m_heap m) cur = Some (n_vt nd)) by (unfold vt_of; rewrite En; reflexivity). destruct (n_vt nd) as [|b parent]; [discriminate|].
  assert (exists l r, subtree (m_vt m) parent = Some (VNode l r)) as (l & r & HV) by (simpl in Sc; destruct (subtree (m_vt m) parent) as [[v|l r]|]; try discriminate; eauto).
  assert (SB : forall b', subtree (m_vt m) (b' :: parent) = Some (if b' then r else l)) by (intros b'; simpl; rewrite HV; destruct b'; reflexivity).
  assert (ST : forall x b' tm2 m2, get_true n (b' :: parent) 0 tm m = Ok (x, tm2, m2) -> Wf m2 /\ mext 0%N m m2 /\ tm_wf tm2 m2 /\ vt_of (m_heap m2) x = Some (b' :: parent) /\ tm_tru (val := val) tm2 m2 /\ few m2 1 x /\
    (exists l r, subtree (m_vt m2) parent = Some (VNode l r)) /\ few m2 N cur).
  { intros x b' tm2 m2 Eg. destruct (get_true_wf Hr Hi n _ _ _ _ _ _ _ W T (ex_intro _ _ (SB b')) Eg) as (W2 & X2 & T2 & V2). destruct (get_true_tru HP n _ _ _ _ _ _ _ W T TT (SB b') Eg) as [TT2 Tx].
    do 5 (split; [assumption|]). split; [apply tru_few; auto|]. split; [rewrite (me_vt _ _ _ X2); eauto|exact (few_ext _ _ _ _ _ W X2 C)]. }
  destruct b; bk E as [[x tm2] m2] Eg; destruct (ST _ _ _ _ Eg) as (W2 & X2 & T2 & V2 & TT2 & Fx & HV2 & Fc); assert (Vc2 := mext_vt _ _ _ _ _ X2 Vc); bk E as [next m3] Ed.
  - destruct (new_dec_wf Hr Hi m2 parent 0%N [x] [cur] [pone] next m3 W2 HV2) as (W3 & X3 & _); auto; [discriminate|].
    pose proof (dec_few m2 parent [x] [cur] [pone] next m3 [1] [N] W2 HV2 ltac:(discriminate) ltac:(auto) ltac:(auto) ltac:(auto) ltac:(auto) Ed) as D.
    eapply (IH target next tm2 m3); eauto; [eapply tm_wf_ext; eauto|eapply tm_tru_ext; eauto|eapply few_le; [exact D|unfold list_sum; cbn [fold_right]; lia]].
  - destruct (new_dec_wf Hr Hi m2 parent 0%N [cur] [x] [pone] next m3 W2 HV2) as (W3 & X3 & _); auto; [discriminate|].
    pose proof (dec_few m2 parent [cur] [x] [pone] next m3 [N] [1] W2 HV2 ltac:(discriminate) ltac:(auto) ltac:(auto) ltac:(auto) ltac:(auto) Ed) as D.
    eapply (IH target next tm2 m3); eauto; [eapply tm_wf_ext; eauto|eapply tm_tru_ext; eauto|eapply few_le; [exact D|unfold list_sum; cbn [fold_right]; lia]].
Qed.
Lemma normalize_few n N target cur tm (m : mgr) i tm' m' : 1 <= N -> Wf m -> tm_wf tm m -> tm_tru (val := val) tm m -> few m N cur ->
  normalize_with (get_true n) target 0 cur tm m = Ok (i, tm', m') -> few m' N i /\ tm_tru (val := val) tm' m'.
Proof. intros HN W T TT C E. unfold normalize_with in E. bk E as vt _. eapply norm_few; eauto. Qed.
Lemma few_all fl (m m' : mgr) ns cs : Wf m -> mext fl m m' -> Forall2 (few m) ns cs -> Forall2 (few m') ns cs.
Proof. intros W X. induction 1; constructor; auto. eapply few_ext; eauto. Qed.
Lemma conform_few n lp rp : forall primes subs ns ks tm (m : mgr) ps ss m', Wf m -> tm_wf tm m -> tm_tru (val := val) tm m -> Forall (le 1) ns -> Forall (le 1) ks -> Forall2 (few m) ns primes -> Forall2 (few m) ks subs -> length primes = length subs ->
  conform_loop (get_true n) lp rp 0 primes subs tm m = Ok (ps, ss, m') -> Forall2 (few m') ns ps /\ Forall2 (few m') ks ss.
Proof.
  induction primes as [|p primes IH]; intros subs ns ks tm m ps ss m' W T TT G1 G2 F1 F2 LE E; cbn [conform_loop] in E.
  - injection E as <- <- <-. destruct subs; [|discriminate]. inversion F1; inversion F2; subst. auto.
  - destruct subs as [|s subs]; [discriminate|]. bk E as [[p' tm1] m1] E1. bk E as [[s' tm2] m2] E2. bk E as [[ps' ss'] m3] E3. injection E as <- <- <-.
    inversion F1 as [|n1 ? ns' ? C1 F1']; subst. inversion F2 as [|n2 ? ks' ? C2 F2']; subst. inversion G1; inversion G2; subst.
    destruct (normalize_with_wf Hr Hi _ (get_true_wf Hr Hi n) _ _ _ _ _ _ _ _ W T E1) as (W1 & X1 & T1 & _). destruct (normalize_few n n1 _ _ _ _ _ _ _ ltac:(assumption) W T TT C1 E1) as [D1 TT1].
    destruct (normalize_with_wf Hr Hi _ (get_true_wf Hr Hi n) _ _ _ _ _ _ _ _ W1 T1 E2) as (W2 & X2 & T2 & _).
    destruct (normalize_few n n2 _ _ _ _ _ _ _ ltac:(assumption) W1 T1 TT1 (few_ext _ _ _ _ _ W X1 C2) E2) as [D2 TT2].
    destruct (conform_loop_wf Hr Hi _ (get_true_wf Hr Hi n) _ _ _ _ _ _ _ _ _ _ W2 T2 E3) as (W3 & X3 & _).
    destruct (IH subs ns' ks' tm2 m2 ps' ss' m3 W2 T2 TT2) as [A B]; auto; [exact (few_all _ _ _ _ _ W1 X2 (few_all _ _ _ _ _ W X1 F1'))|exact (few_all _ _ _ _ _ W1 X2 (few_all _ _ _ _ _ W X1 F2'))|].
    split; apply Forall2_cons; auto; [exact (few_ext _ _ _ _ _ W2 X3 (few_ext _ _ _ _ _ W1 X2 D1))|exact (few_ext _ _ _ _ _ W2 X3 D2)].
Qed.
Lemma conformed_few (m : mgr) primes subs ws i m' ns ks : Wf m -> Forall (le 1) ns -> Forall (le 1) ks -> Forall2 (few m) ns primes -> Forall2 (few m) ks subs -> length primes = length subs ->
  GetConformedPsddDecisionNode m primes subs ws 0 = Ok (i, m') -> few m' (Nat.max 1 (Nat.max (list_sum ns) (list_sum ks))) i.
Proof.
  intros W N1 N2 F1 F2 LE E. unfold GetConformedPsddDecisionNode, conformed_with in E. bk E as p0 Ep. bk E as s0 _. bk E as vp _. bk E as vs _. bk E as [[ps ss] m1] El.
  destruct (conform_loop_wf Hr Hi _ (get_true_wf Hr Hi gt_fuel) _ _ _ _ _ _ _ _ _ _ W (tm_wf_nil _) El) as (W1 & X1 & L1 & L2 & G1 & G2).
  destruct (conform_few gt_fuel _ _ _ _ _ _ _ _ _ _ _ W (tm_wf_nil _) ltac:(intros ? ? Q; discriminate Q) N1 N2 F1 F2 LE El) as [C1 C2].
  assert (NE : ps <> []) by (destruct primes; [discriminate|]; destruct ps; [discriminate|discriminate]).
  assert (exists l r, subtree (m_vt m) (vlca vp vs) = Some (VNode l r)) as (l & r & HV).
  { destruct ps as [|x ps]; [congruence|]. inversion G1 as [|? ? (q & Hq & _) _]; subst. unfold vkid in Hq. destruct (subtree (m_vt m) (vlca vp vs)) as [[v|l r]|]; try discriminate. eauto. }
  unfold vkid in G1, G2. rewrite HV in G1, G2.
  assert (G1' : Forall (fun c => vt_of (m_heap m1) c = Some (false :: vlca vp vs)) ps) by (eapply Forall_impl; [|exact G1]; intros a (q & Hq & H); congruence).
  assert (G2' : Forall (fun c => vt_of (m_heap m1) c = Some (true :: vlca vp vs)) ss) by (eapply Forall_impl; [|exact G2]; intros a (q & Hq & H); congruence).
  eapply (dec_few m1 (vlca vp vs) ps ss ws); eauto. exists l, r. rewrite (me_vt _ _ _ X1). auto.
Qed.

(** ** compile_factor *)
Definition fewo (m : mgr) (n : nat) (x : option nat) : Prop := match x with Some i => few m n i | None => True end.
Lemma fewo_ext fl (m m' : mgr) n x : Wf m -> mext fl m m' -> fewo m n x -> fewo m' n x.
Proof. destruct x; cbn; auto. apply few_ext. Qed.
Lemma term_few v pos neg (m : mgr) x m' : Wf m -> term_node v pos neg m = Ok (x, m') -> fewo m' 1 (fst x).
Proof.
  intros W E. unfold term_node in E. destruct (peq (padd pos neg) pzero); [injection E as <- <-; exact Logic.I|].
  destruct (peq pos pzero); [|destruct (peq neg pzero)]; bk E as [i m1] E1; injection E as <- <-; cbn; [eapply literal_few; eauto|eapply literal_few; eauto|eapply top_few; eauto].
Qed.
Lemma cond_few N v pos neg sp sn (m : mgr) x m' : 1 <= N -> Wf m -> fewo m N sp -> fewo m N sn -> cond_node v pos neg sp sn m = Ok (x, m') -> fewo m' (2 * N) (fst x).
Proof.
  intros HN W Cp Cn E. unfold cond_node in E. destruct (peq (padd pos neg) pzero); [injection E as <- <-; exact Logic.I|].
  destruct (peq pos pzero); [|destruct (peq neg pzero)]; bk E as [i m1] E1; pose proof (literal_few _ _ _ _ W E1) as K;
    apply (literal_wf Hr Hi) in E1 as (W1 & X1 & _); auto; apply (fewo_ext _ _ _ _ _ W X1) in Cp, Cn.
  - destruct sn as [s|]; [|discriminate]. cbn [get bind] in E. bk E as [j m2] E2. injection E as <- <-. cbn. eapply few_le; [eapply (conformed_few m1 [i] [s] [pone] _ _ [1] [N]); eauto|unfold list_sum; cbn [fold_right]; lia].
  - destruct sp as [s|]; [|discriminate]. cbn [get bind] in E. bk E as [j m2] E2. injection E as <- <-. cbn. eapply few_le; [eapply (conformed_few m1 [i] [s] [pone] _ _ [1] [N]); eauto|unfold list_sum; cbn [fold_right]; lia].
  - bk E as [j m2] E2. pose proof (literal_few _ _ _ _ W1 E2) as K2. apply (literal_wf Hr Hi) in E2 as (W2 & X2 & _); auto. apply (fewo_ext _ _ _ _ _ W1 X2) in Cp, Cn. apply (few_ext _ _ _ _ _ W1 X2) in K.
    destruct sp as [s1|]; [|discriminate]. destruct sn as [s2|]; [|discriminate]. cbn [get bind] in E. bk E as [k m3] E3. injection E as <- <-. cbn.
    eapply few_le; [eapply (conformed_few m2 [i; j] [s1; s2] _ _ _ [1; 1] [N; N] W2); [..|exact E3]; auto|unfold list_sum; cbn [fold_right]; lia].
Qed.
Definition cache_few (m : mgr) (n : nat) (nc : @ncache) : Prop := Forall (fun x => fewo m n (snd x)) nc.
Lemma cache_few_ext fl (m m' : mgr) n nc : Wf m -> mext fl m m' -> cache_few m n nc -> cache_few m' n nc.
Proof. intros W X. apply Forall_impl. intros a. apply fewo_ext with fl; auto. Qed.
Lemma at_few (m : mgr) n nc k x : cache_few m n nc -> at_ k nc = Ok x -> fewo m n x.
Proof.
  intros C E. unfold at_ in E. destruct (Nlookup k nc) as [y|] eqn:Q; [|discriminate]. injection E as <-. revert Q. induction C as [|[k' y'] nc H C IH]; cbn [Nlookup]; [discriminate|].
  intros Q. unfold Nlookup in Q. cbn in Q. destruct (N.eqb k k'); [injection Q as <-; exact H|]. apply IH. exact Q.
Qed.
Lemma term_fold_few table v loc : forall ks nc zc (m : mgr) nc' zc' m', Wf m -> cache_few m 1 nc -> foldM (term_step table v loc) ks (nc, zc, m) = Ok (nc', zc', m') ->
  Wf m' /\ mext 0%N m m' /\ cache_few m' 1 nc'.
Proof.
  induction ks as [|k ks IH]; intros nc zc m nc' zc' m' W C E; cbn [foldM] in E; [injection E as <- <- <-; auto using mext_refl|].
  bk E as [[nc1 zc1] m1] E1.
  assert (Wf m1 /\ mext 0%N m m1 /\ cache_few m1 1 nc1) as (W1 & X1 & C1).
  { unfold term_step in E1. destruct (Nlookup _ nc); [injection E1 as <- <- <-; auto using mext_refl|].
    bk E1 as ng _. bk E1 as ps _. bk E1 as [x n1] Q1. injection E1 as <- <- <-. destruct (term_node_wf Hr Hi _ _ _ _ _ _ W Q1) as [W1 X1].
    split; auto. split; auto. constructor; [exact (term_few _ _ _ _ _ _ W Q1)|exact (cache_few_ext _ _ _ _ _ W X1 C)]. }
  apply IH in E as (W2 & X2 & C2); auto. split; auto. split; [exact (mext_trans _ _ _ _ X1 X2)|auto].
Qed.
Lemma cond_fold_few N nc0 zc0 v loc : 1 <= N -> forall ks nc zc (m : mgr) nc' zc' m', Wf m -> cache_few m N nc0 -> cache_few m (2 * N) nc -> foldM (cond_step nc0 zc0 v loc) ks (nc, zc, m) = Ok (nc', zc', m') ->
  Wf m' /\ mext 0%N m m' /\ cache_few m' (2 * N) nc'.
Proof.
  intros HN. induction ks as [|k ks IH]; intros nc zc m nc' zc' m' W C0 C E; cbn [foldM] in E; [injection E as <- <- <-; auto using mext_refl|].
  bk E as [[nc1 zc1] m1] E1.
  assert (Wf m1 /\ mext 0%N m m1 /\ cache_few m1 (2 * N) nc1) as (W1 & X1 & C1).
  { unfold cond_step in E1. destruct (Nlookup _ nc); [injection E1 as <- <- <-; auto using mext_refl|].
    bk E1 as q1 _. bk E1 as q2 _. bk E1 as q3 A3. bk E1 as q4 A4. bk E1 as [x n1] Q1. injection E1 as <- <- <-. destruct (cond_node_wf Hr Hi _ _ _ _ _ _ _ _ W Q1) as [W1 X1].
    split; auto. split; auto. constructor; [exact (cond_few N _ _ _ _ _ _ _ _ HN W (at_few _ _ _ _ _ C0 A4) (at_few _ _ _ _ _ C0 A3) Q1)|exact (cache_few_ext _ _ _ _ _ W X1 C)]. }
  apply IH in E as (W2 & X2 & C2); auto; [|exact (cache_few_ext _ _ _ _ _ W X1 C0)]. split; auto. split; [exact (mext_trans _ _ _ _ X1 X2)|auto].
Qed.
Lemma level_fold_few ord : forall rest N k nc zc (m : mgr) k' nc' zc' m', 1 <= N -> Wf m -> cache_few m N nc -> foldM (level_step ord) rest (k, nc, zc, m) = Ok (k', nc', zc', m') ->
  Wf m' /\ mext 0%N m m' /\ cache_few m' (2 ^ length rest * N) nc'.
Proof.
  induction rest as [|[v l] rest IH]; intros N k nc zc m k' nc' zc' m' HN W C E; cbn [foldM] in E; [injection E as <- <- <- <-; split; auto; split; [apply mext_refl|cbn; rewrite Nat.add_0_r; auto]|].
  bk E as [[[k1 nc1] zc1] m1] E1. unfold level_step in E1. bk E1 as loc _. bk E1 as [[nc2 zc2] n1] Q1. injection E1 as <- <- <- <-. cbn [fst snd] in *.
  apply (cond_fold_few N) in Q1 as (W1 & X1 & C1); auto; [|constructor]. apply (IH (2 * N)) in E as (W2 & X2 & C2); auto; [|lia]. split; auto. split; [exact (mext_trans _ _ _ _ X1 X2)|].
  replace (2 ^ length ((v, l) :: rest) * N) with (2 ^ length rest * (2 * N)); auto. cbn [length Nat.pow]. lia.
Qed.
Theorem compile_factor_few ord (F : factor P) (m : mgr) i z m' : Wf m -> compile_factor ord F m = Ok (i, z, m') -> few m' (2 ^ (length (f_scope F) - 1)) i.
Proof.
  intros W E. unfold compile_factor in E. bk E as ser _. set (leafs := sort_pos _ _) in *. set (locs := flat_map _ leafs) in E. bk E as u EL.
  assert (LS : length (combine (map snd leafs) locs) <= length (f_scope F)).
  { unfold assert in EL. destruct (Nat.eqb (length locs) (length (rev (f_scope F)))) eqn:Q; [|discriminate]. apply Nat.eqb_eq in Q. rewrite rev_length in Q. rewrite combine_length. lia. }
  destruct (combine _ _) as [|[v l] rest]; [discriminate|]. cbn [length] in LS. bk E as loc _.
  bk E as [[nc zc] m1] E1. apply term_fold_few in E1 as (W1 & X1 & C1); auto; [|constructor]. cbn [fst snd] in E.
  bk E as [[[k nc2] zc2] m2] E2. apply (level_fold_few _ _ 1) in E2 as (W2 & X2 & C2); auto. bk E as u1 _. bk E as r A. bk E as z1 _. bk E as j B. bk E as [j' m3] E3. injection E as <- <- <-.
  rewrite Nat.mul_1_r in C2. pose proof (at_few _ _ _ _ _ C2 A) as CR. destruct r as [r|]; [|discriminate]. injection B as ->. cbn [fewo] in CR. unfold NormalizePsddNode in E3. bk E3 as [[j1 tm1] m4] E4. injection E3 as <- <-.
  assert (PW : 1 <= 2 ^ length rest) by (pose proof (Nat.pow_nonzero 2 (length rest)); lia).
  eapply few_le; [exact (proj1 (normalize_few _ _ _ _ _ _ _ _ _ PW W2 (tm_wf_nil _) ltac:(intros ? ? Q; discriminate Q) CR E4))|].
  apply Nat.pow_le_mono_r; lia.
Qed.
Theorem load_factors_few ords : forall (fs : network P) k z (m : mgr) nodes z' m', Wf m -> load_factors ords k fs z m = Ok (nodes, z', m') -> Forall2 (fun F i => few m' (2 ^ (length (f_scope F) - 1)) i) fs nodes.
Proof.
  induction fs as [|F fs IH]; intros k z m nodes z' m' W E; cbn [load_factors] in E.
  - injection E as <- <- <-. constructor.
  - bk E as [[i z1] m1] E1. bk E as [[ns z2] m2] E2. injection E as <- <- <-. destruct (compile_factor_wf Hr Hi _ _ _ _ _ _ W E1) as (W1 & X1 & _). pose proof (compile_factor_few _ _ _ _ _ _ W E1) as C.
    destruct (load_factors_wf Hr Hi _ _ _ _ _ _ _ _ W1 E2) as (W2 & X2 & _). apply Forall2_cons; [exact (few_ext _ _ _ _ _ W1 X2 C)|exact (IH _ _ _ _ _ _ W1 E2)].
Qed.
End SizeCut.
