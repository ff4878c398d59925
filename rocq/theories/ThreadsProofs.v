(** Queries that run at the same time and use different fields give the answers they give alone (C82). *)
From Verif Require Import Base Param Vtree VtreeProofs Heap Manager HeapProofs SerProofs Query Threads.

Section Proofs.
Context {P : pops}.
Notation heap := (heap P). Notation node := (node P). Notation cells := (@cells P). Notation prog := (@prog P). Notation answer := (@answer P).
(** ** A thread alone *)
Fixpoint run {A} (p : prog A) (c : cells) : res A * cells :=
  match p with
  | Ret r => (r, c)
  | RdF i k => run (k (c_flag c i)) c
  | WrF i b k => run k (MkC (set_at (c_flag c) i b) (c_ud c))
  | RdU i k => run (k (c_ud c i)) c
  | WrU i u k => run k (MkC (c_flag c) (set_at (c_ud c) i u))
  end.
Definition rbind {A B} (x : res A * cells) (k : A -> cells -> res B * cells) : res B * cells :=
  match x with
  | (Ok a, c) => k a c
  | (Abort, c) => (Abort, c)
  | (UB, c) => (UB, c)
  | (NoFuel, c) => (NoFuel, c)
  end.
Lemma run_bind {A B} (p : prog A) (k : A -> prog B) : forall c, run (pbind p k) c = rbind (run p c) (fun a c' => run (k a) c').
Proof. induction p as [r|i f IH|i b p IH|i f IH|i u p IH]; intros c; simpl; auto. destruct r; reflexivity. Qed.
Lemma run_ret {A} (a : A) c : run (ret a) c = (Ok a, c).
Proof. reflexivity. Qed.
Lemma run_Ret {A} (r : res A) c : run (Ret r) c = (r, c).
Proof. reflexivity. Qed.

(** ** Footprints *)
Inductive touches {A} (F U : list nat) : prog A -> Prop :=
| touches_ret r : touches F U (Ret r)
| touches_rdf i k : In i F -> (forall b, touches F U (k b)) -> touches F U (RdF i k)
| touches_wrf i b k : In i F -> touches F U k -> touches F U (WrF i b k)
| touches_rdu i k : In i U -> (forall u, touches F U (k u)) -> touches F U (RdU i k)
| touches_wru i u k : In i U -> touches F U k -> touches F U (WrU i u k).
Lemma touches_bind {A B} F U (p : prog A) (k : A -> prog B) : touches F U p -> (forall a, touches F U (k a)) -> touches F U (pbind p k).
Proof. intros H K. induction H as [r|i f Hi _ IH|i b p Hi _ IH|i f Hi _ IH|i u p Hi _ IH]; simpl; try (constructor; auto; fail). destruct r; auto; constructor. Qed.
Lemma touches_fold {S A} F U (f : S -> A -> prog S) l : (forall s a, In a l -> touches F U (f s a)) -> forall s, touches F U (pfold f l s).
Proof.
  induction l as [|a l IH]; intros H s; simpl; [constructor|]. apply touches_bind; [apply H; simpl; auto|]. intros s'. apply IH. intros s1 a1 H1. apply H. simpl. auto.
Qed.
Definition agree (F U : list nat) (c c' : cells) : Prop := (forall i, In i F -> c_flag c i = c_flag c' i) /\ forall i, In i U -> c_ud c i = c_ud c' i.
Lemma agree_refl F U c : agree F U c c.
Proof. split; auto. Qed.
Lemma agree_trans F U a b c : agree F U a b -> agree F U b c -> agree F U a c.
Proof. intros [A1 A2] [B1 B2]. split; intros i Hi; [rewrite A1, B1|rewrite A2, B2]; auto. Qed.
Lemma agree_sym F U a b : agree F U a b -> agree F U b a.
Proof. intros [A1 A2]. split; intros i Hi; [rewrite A1|rewrite A2]; auto. Qed.
Lemma touches_agree {A} F U (p : prog A) : touches F U p -> forall c c', agree F U c c' ->
  fst (run p c) = fst (run p c') /\ agree F U (snd (run p c)) (snd (run p c')).
Proof.
  induction 1 as [r|i f Hi _ IH|i b p Hi _ IH|i f Hi _ IH|i u p Hi _ IH]; intros c c' AG; simpl; auto.
  - rewrite (proj1 AG i Hi). apply IH; auto.
  - apply IH. destruct AG as [A1 A2]. split; simpl; auto. intros j Hj. unfold set_at. destruct (Nat.eqb j i); auto.
  - rewrite (proj2 AG i Hi). apply IH; auto.
  - apply IH. destruct AG as [A1 A2]. split; simpl; auto. intros j Hj. unfold set_at. destruct (Nat.eqb j i); auto.
Qed.
Lemma access_run c p c' p' : access c p = Some (c', p') -> run p c = run p' c'.
Proof. destruct p; simpl; intros E; inversion E; subst; reflexivity. Qed.
Lemma access_touches F U c p c' p' : touches F U p -> access c p = Some (c', p') -> touches F U p' /\
  (forall i, ~ In i F -> c_flag c' i = c_flag c i) /\ (forall i, ~ In i U -> c_ud c' i = c_ud c i).
Proof.
  intros T E. destruct T as [r|i f Hi T|i b p Hi T|i f Hi T|i u p Hi T]; simpl in E; inversion E; subst; repeat split; auto; intros j Hj; simpl; unfold set_at;
    destruct (Nat.eqb_spec j i); auto; subst; contradiction.
Qed.

(** ** Several threads *)
Notation foot := (list nat * list nat)%type.
Definition disjoint (a b : foot) : Prop := (forall i, In i (fst a) -> ~ In i (fst b)) /\ forall i, In i (snd a) -> ~ In i (snd b).
Definition pairwise (fps : list foot) : Prop := forall j k a b, j <> k -> nth_error fps j = Some a -> nth_error fps k = Some b -> disjoint a b.
Definition tfoot (fp : foot) (p : prog answer) : Prop := touches (fst fp) (snd fp) p.
Definition same_end (fp : foot) (x y : res answer * cells) : Prop := fst x = fst y /\ agree (fst fp) (snd fp) (snd x) (snd y).
Definition outside (fps : list foot) (c c' : cells) : Prop :=
  (forall i, (forall fp, In fp fps -> ~ In i (fst fp)) -> c_flag c' i = c_flag c i) /\ forall i, (forall fp, In fp fps -> ~ In i (snd fp)) -> c_ud c' i = c_ud c i.
Lemma Forall2_nth {A B} (R : A -> B -> Prop) la lb : Forall2 R la lb -> forall k a b, nth_error la k = Some a -> nth_error lb k = Some b -> R a b.
Proof. induction 1 as [|x y la lb H _ IH]; intros [|k] a b E1 E2; simpl in *; try discriminate; [congruence|eauto]. Qed.
Lemma step_isolated fps c ts c' ts' : pairwise fps -> Forall2 tfoot fps ts -> tstep (c, ts) (c', ts') ->
  Forall2 tfoot fps ts' /\ outside fps c c' /\
  forall k fp p p', nth_error fps k = Some fp -> nth_error ts k = Some p -> nth_error ts' k = Some p' -> same_end fp (run p' c') (run p c).
Proof.
  intros PW F2 H. inversion H as [c0 c0' q q' ts1 ts2 AC E1 E2]; subst.
  apply Forall2_app_inv_r in F2 as (f1 & f2 & F1 & F2 & ->). inversion F2 as [|fq q0 f2' ts2' Tq F2' E1 E2]; subst. clear F2.
  destruct (access_touches _ _ _ _ _ _ Tq AC) as (Tq' & O1 & O2).
  split; [apply Forall2_app; auto|]. split.
  - split; intros i Hi; [apply O1|apply O2]; apply Hi; apply in_or_app; simpl; auto.
  - assert (length f1 = length ts1) as LE by (clear - F1; induction F1; simpl; auto).
    intros k fp p p' Ef Ep Ep'. destruct (Nat.eq_dec k (length ts1)) as [->|NE].
    + rewrite nth_error_app2, Nat.sub_diag in Ep, Ep' by auto. simpl in Ep, Ep'. injection Ep as <-. injection Ep' as <-. rewrite (access_run _ _ _ _ AC). split; auto. apply agree_refl.
    + assert (p' = p) as ->.
      { destruct (Nat.lt_ge_cases k (length ts1)); [rewrite nth_error_app1 in Ep, Ep' by auto; congruence|]. rewrite nth_error_app2 in Ep, Ep' by auto.
        destruct (k - length ts1) as [|d] eqn:D; [lia|]. simpl in Ep, Ep'. congruence. }
      assert (tfoot fp p) as Tp by (eapply (Forall2_nth tfoot (f1 ++ fq :: f2') (ts1 ++ q :: ts2)); eauto; apply Forall2_app; auto).
      assert (disjoint fp fq) as [D1 D2].
      { apply (PW k (length f1)); auto; [lia|]. rewrite nth_error_app2, Nat.sub_diag by auto. reflexivity. }
      destruct (touches_agree _ _ _ Tp c' c) as [A B]; [split; intros i Hi; [apply O1|apply O2]; auto|]. split; auto.
Qed.
Theorem isolated fps s s' : tsteps s s' -> pairwise fps -> Forall2 tfoot fps (snd s) ->
  Forall2 tfoot fps (snd s') /\ outside fps (fst s) (fst s') /\
  forall k fp p p', nth_error fps k = Some fp -> nth_error (snd s) k = Some p -> nth_error (snd s') k = Some p' -> same_end fp (run p' (fst s')) (run p (fst s)).
Proof.
  intros H PW. induction H as [s|s s1 s2 H _ IH]; intros F2.
  - split; auto. split; [split; auto|]. intros k fp p p' _ E1 E2. rewrite E1 in E2. injection E2 as <-. split; auto. apply agree_refl.
  - destruct s as [c ts], s1 as [c1 ts1]. simpl in *. destruct (step_isolated _ _ _ _ _ PW F2 H) as (G2 & O1 & R1). destruct (IH G2) as (K2 & O2 & R2).
    split; auto. split.
    + destruct O1 as [A1 A2], O2 as [B1 B2]. split; intros i Hi; [rewrite B1, A1|rewrite B2, A2]; auto.
    + intros k fp p p' Ef Ep Ep'. destruct (nth_error ts1 k) as [p1|] eqn:E1.
      * destruct (R1 k fp p p1 Ef Ep E1) as [X1 X2]. destruct (R2 k fp p1 p' Ef E1 Ep') as [Y1 Y2]. split; [congruence|]. eapply agree_trans; eauto.
      * exfalso. assert (length fps = length ts1) as LE by (clear - G2; induction G2; simpl; auto). apply nth_error_None in E1. assert (k < length fps) by (apply nth_error_Some; congruence). lia.
Qed.

(** ** Every schedule ends *)
Inductive smaller : prog answer -> prog answer -> Prop :=
| smaller_rdf i k b : smaller (k b) (RdF i k)
| smaller_wrf i b k : smaller k (WrF i b k)
| smaller_rdu i k u : smaller (k u) (RdU i k)
| smaller_wru i u k : smaller k (WrU i u k).
Inductive lsmaller : list (prog answer) -> list (prog answer) -> Prop :=
| lsmaller_at p p' ts1 ts2 : smaller p' p -> lsmaller (ts1 ++ p' :: ts2) (ts1 ++ p :: ts2).
Lemma smaller_wf : well_founded smaller.
Proof. intros p. induction p as [r|i f IH|i b p IH|i f IH|i u p IH]; constructor; intros q H; inversion H; subst; auto. Qed.
Lemma lsmaller_wf : well_founded lsmaller.
Proof.
  intros ts. induction ts as [|p ts IH].
  - constructor. intros l H. inversion H as [q q' ts1 ts2 S E1 E2]. destruct ts1; discriminate.
  - revert ts IH. induction (smaller_wf p) as [p _ IHp]. intros ts A. induction A as [ts A IHA].
    constructor. intros l H. inversion H as [q q' ts1 ts2 S E1 E2]; subst. destruct ts1 as [|x ts1]; simpl in *.
    + injection E2 as -> ->. apply IHp; auto. constructor; auto.
    + injection E2 as -> <-. apply IHA. constructor; auto.
Qed.
Theorem schedules_end : well_founded (fun s' s => @tstep P s s').
Proof.
  intros [c ts]. revert c. induction (lsmaller_wf ts) as [ts _ IH]. intros c. constructor. intros [c' ts'] H. inversion H as [c0 c0' p p' ts1 ts2 AC E1 E2]; subst.
  apply IH. constructor. destruct p; simpl in AC; inversion AC; subst; constructor.
Qed.
Theorem unfinished_moves c (ts : list (prog answer)) : ~ finished (c, ts) -> exists s, tstep (c, ts) s.
Proof.
  intros NF. unfold finished in NF. simpl in NF.
  assert (exists ts1 p ts2, ts = ts1 ++ p :: ts2 /\ forall r, p <> Ret r) as (ts1 & p & ts2 & -> & NR).
  { induction ts as [|p ts IH]; [exfalso; apply NF; constructor|]. destruct p as [r|i k|i b k|i k|i u k].
    - destruct IH as (ts1 & p & ts2 & -> & NR); [intros F; apply NF; constructor; eauto|]. exists (Ret r :: ts1), p, ts2. auto.
    - exists [], (RdF i k), ts. split; [reflexivity|discriminate].
    - exists [], (WrF i b k), ts. split; [reflexivity|discriminate].
    - exists [], (RdU i k), ts. split; [reflexivity|discriminate].
    - exists [], (WrU i u k), ts. split; [reflexivity|discriminate]. }
  destruct (access c p) as [[c' p']|] eqn:E; [|destruct p; try discriminate; exfalso; eapply NR; eauto]. exists (c', ts1 ++ p' :: ts2). constructor; auto.
Qed.
Lemma exec_steps sch : forall c ts, @tsteps P (c, ts) (exec sch c ts).
Proof.
  induction sch as [|k sch IH]; intros c ts; simpl; [constructor|]. destruct (nth_error ts k) as [p|] eqn:E; auto. destruct (access c p) as [[c' p']|] eqn:A; auto.
  eapply tsteps_more; [|apply IH]. rewrite <- (firstn_skipn k ts) at 1. assert (skipn k ts = p :: skipn (S k) ts) as ->.
  { clear - E. revert ts E. induction k as [|k IH]; intros [|a ts] E; simpl in E; try discriminate; [injection E as ->; reflexivity|]. simpl. rewrite (IH _ E). destruct ts; reflexivity. }
  constructor. auto.
Qed.

(** ** A query alone does what Query.v says *)
Definition follows {A B} (x : res A * cells) (r : res B) (R : A -> cells -> B -> Prop) : Prop :=
  match r with
  | Ok b => exists a c, x = (Ok a, c) /\ R a c b
  | Abort => fst x = Abort
  | UB => fst x = UB
  | NoFuel => fst x = NoFuel
  end.
Lemma follows_bind {A B A' B'} (p : prog A) (k : A -> prog A') (r : res B) (kr : B -> res B') R R' c :
  follows (run p c) r R -> (forall a c' b, R a c' b -> follows (run (k a) c') (kr b) R') -> follows (run (pbind p k) c) (bind r kr) R'.
Proof.
  intros H K. rewrite run_bind. destruct r as [b| | |]; simpl in H.
  - destruct H as (a & c' & -> & HR). simpl. apply K; auto.
  - destruct (run p c) as [[| | |] c']; simpl in H; try discriminate. reflexivity.
  - destruct (run p c) as [[| | |] c']; simpl in H; try discriminate. reflexivity.
  - destruct (run p c) as [[| | |] c']; simpl in H; try discriminate. reflexivity.
Qed.
Lemma follows_Ret {A} (r : res A) c : follows (run (Ret r) c) r (fun a c' b => a = b /\ c' = c).
Proof. destruct r; simpl; eauto. Qed.
Lemma follows_fold {S T A} (f : S -> A -> prog S) (g : T -> A -> res T) (R : S -> cells -> T -> Prop) l :
  (forall a s c t, In a l -> R s c t -> follows (run (f s a) c) (g t a) R) ->
  forall s c t, R s c t -> follows (run (pfold f l s) c) (foldM g l t) R.
Proof.
  induction l as [|a l IH]; intros H s c t HR; simpl.
  - exists s, c. auto.
  - eapply follows_bind; [apply H; simpl; auto|]. intros s' c' t' HR'. apply IH; auto. intros a1 s1 c1 t1 H1. apply H. simpl. auto.
Qed.

Lemma cons_elems_run es c : run (cons_elems es) c = (Ok (existsb (fun e => c_flag c (e_prime e) && c_flag c (e_sub e)) es), c).
Proof. induction es as [|e es IH]; simpl; auto. destruct (c_flag c (e_prime e)) eqn:E1; simpl; auto. destruct (c_flag c (e_sub e)) eqn:E2; simpl; auto. Qed.
Lemma cons_follows h mask e L (c : cells) :
  follows (run (IsConsistentP h mask e L) c) (IsConsistentNodes h mask e L (c_flag c)) (fun b c' y => b = fst y /\ c_flag c' = snd y /\ c_ud c' = c_ud c).
Proof.
  unfold IsConsistentP, IsConsistentNodes. eapply follows_bind.
  - apply (follows_fold (cons_stepP h mask e) (cons_step h mask e) (fun _ c' f => c_flag c' = f /\ c_ud c' = c_ud c)); auto.
    intros i [] c1 f _ [E1 E2]. unfold cons_stepP, cons_step. eapply follows_bind; [apply follows_Ret|]. intros nd c2 nd' [-> ->]. unfold cons_node.
    destruct (n_body nd') as [l|v pt pf|es].
    + destruct (if mask (lit_var l) then Bool.eqb (e (lit_var l)) (lit_sign l) else true); simpl; do 2 eexists; (split; [reflexivity|]); simpl; subst; auto.
    + simpl. do 2 eexists. split; [reflexivity|]. simpl. subst; auto.
    + rewrite run_bind, cons_elems_run. simpl. rewrite E1. destruct (existsb _ es); simpl; do 2 eexists; (split; [reflexivity|]); simpl; subst; auto.
  - intros [] c1 f [E1 E2]. eapply follows_bind; [apply follows_Ret|]. intros r c2 r' [-> ->]. cbn [run]. rewrite run_bind.
    assert (forall l c0, run (pfold (fun (_ : unit) i => WrF i false (ret tt)) l tt) c0 = (Ok tt, MkC (fold_left (fun f i => set_at f i false) l (c_flag c0)) (c_ud c0))) as CL.
    { induction l as [|i l IH]; intros c0; simpl; [destruct c0; reflexivity|]. rewrite IH. reflexivity. }
    rewrite CL. simpl. do 2 eexists. split; [reflexivity|]. simpl. rewrite E1. auto.
Qed.

Lemma readnum_run i k (c : cells) : c_ud c i = UNum k -> run (readnum i) c = (Ok k, c).
Proof. intros E. simpl. rewrite E. reflexivity. Qed.
Definition indexed (ud : nat -> option nat) (c : cells) (i : nat) : Prop := exists k, ud i = Some k /\ c_ud c i = UNum k.
Lemma marg_push_follows ud d w ds i c : indexed ud c i -> follows (run (marg_pushP d w ds i) c) (marg_push ud d w ds i) (fun a c' b => a = b /\ c' = c).
Proof.
  intros (k & E1 & E2). unfold marg_pushP, marg_push. rewrite E1. cbn [get bind]. rewrite run_bind, (readnum_run _ _ _ E2). cbn [rbind]. rewrite run_bind, run_Ret.
  destruct (nth_error ds k) as [old|] eqn:N; simpl; auto. rewrite E2. simpl. rewrite N. simpl. eauto.
Qed.
Lemma marg_step_follows h ud st i c : indexed ud c i -> (forall nd j, nth_error h i = Some nd -> In j (children nd) -> indexed ud c j) ->
  follows (run (marg_stepP h st i) c) (marg_step h ud st i) (fun a c' b => a = b /\ c' = c).
Proof.
  intros (k & E1 & E2) CH. destruct st as [ds mg]. unfold marg_stepP, marg_step, node_of. destruct (nth_error h i) as [nd|] eqn:EN; [|reflexivity]. cbn [get bind].
  rewrite E1. cbn [get bind]. rewrite run_bind, run_Ret. cbn [rbind]. rewrite run_bind, (readnum_run _ _ _ E2). cbn [rbind]. rewrite run_bind, run_Ret. destruct (nth_error ds k) as [d|] eqn:N; [|reflexivity]. cbn [get rbind bind].
  destruct (n_body nd) as [l|v pt pf|es] eqn:B.
  - simpl. eauto.
  - rewrite run_bind, (readnum_run _ _ _ E2). cbn [rbind]. rewrite run_bind, run_Ret, N. simpl. eauto.
  - eapply follows_bind.
    + apply (follows_fold _ (fun ds e => do ds1 <- marg_push ud d (e_param e) ds (e_prime e) ;; marg_push ud d (e_param e) ds1 (e_sub e)) (fun a c' b => a = b /\ c' = c)); auto.
      intros e ds1 c1 ds2 He [-> ->].
      assert (indexed ud c (e_prime e) /\ indexed ud c (e_sub e)) as [I1 I2].
      { split; apply (CH nd); auto; unfold children; rewrite B; apply in_or_app; [left|right]; apply in_map_iff; eauto. }
      eapply follows_bind; [apply marg_push_follows; auto|]. intros a c2 b [-> ->]. apply marg_push_follows; auto.
    + intros a c2 b [-> ->]. simpl. eauto.
Qed.
Lemma index_run L : forall k (c : cells), run (pfold (fun k i => WrU i (UNum k) (ret (S k))) L k) c =
  (Ok (k + length L), MkC (c_flag c) (fst (fold_left (fun st i => (set_at (fst st) i (UNum (snd st)), S (snd st))) L (c_ud c, k)))).
Proof.
  induction L as [|i L IH]; intros k c; simpl; [rewrite Nat.add_0_r; destruct c; reflexivity|]. rewrite IH. simpl. repeat f_equal. lia.
Qed.
Lemma index_rel L : forall (u : nat -> uval) ud k i, (In i L \/ exists n, ud i = Some n /\ u i = UNum n) ->
  exists n, fst (fold_left (fun st i => (set_ud (fst st) i (Some (snd st)), S (snd st))) L (ud, k)) i = Some n /\
            fst (fold_left (fun st i => (set_at (fst st) i (@UNum P (snd st)), S (snd st))) L (u, k)) i = UNum n.
Proof.
  induction L as [|j L IH]; intros u ud k i H; simpl.
  - destruct H as [[]|H]; auto.
  - apply IH. destruct (In_dec Nat.eq_dec i L) as [Hi|Hi]; auto. right. unfold set_at, set_ud. destruct (Nat.eqb_spec i j) as [->|NE]; eauto.
    destruct H as [[<-|H]|H]; try contradiction; auto.
Qed.
Lemma wipe_run (w : nat -> prog unit) L : (forall i c, run (w i) c = (Ok tt, MkC (c_flag c) (set_at (c_ud c) i (UNum 0)))) -> forall c,
  run (pfold (fun _ i => w i) L tt) c = (Ok tt, MkC (c_flag c) (fold_left (fun u i => set_at u i (UNum 0)) L (c_ud c))).
Proof. intros HW. induction L as [|i L IH]; intros c; cbn [pfold]; [destruct c; reflexivity|]. rewrite run_bind, HW. cbn [rbind]. rewrite IH. reflexivity. Qed.
Lemma wipe_in L : forall (u : nat -> @uval P) i, In i L \/ u i = UNum 0 -> fold_left (fun u i => set_at u i (UNum 0)) L u i = UNum 0.
Proof.
  induction L as [|j L IH]; intros u i H; simpl; [destruct H as [[]|H]; auto|]. apply IH. unfold set_at. destruct (Nat.eqb_spec i j); auto. destruct H as [[<-|H]|H]; auto. contradiction.
Qed.
Definition closedL (h : heap) (L : list nat) : Prop := forall i nd j, In i L -> nth_error h i = Some nd -> In j (children nd) -> In j L.
Lemma marg_follows h L (c : cells) : closedL h L ->
  follows (run (GetMarginalsP h L) c) (GetMarginals h L) (fun a c' b => a = b /\ c_flag c' = c_flag c /\ forall i, In i L -> c_ud c' i = UNum 0).
Proof.
  intros CL. unfold GetMarginalsP, GetMarginals. destruct L as [|r L']; [reflexivity|]. set (L := r :: L') in *. rewrite run_bind, index_run. cbn [rbind].
  set (c1 := MkC (c_flag c) _).
  assert (forall i, In i L -> indexed (marg_index L) c1 i) as IX.
  { intros i Hi. destruct (index_rel L (c_ud c) (fun _ => None) 0 i) as (n & E1 & E2); auto. exists n. auto. }
  eapply follows_bind.
  - apply (follows_fold _ (marg_step h (marg_index L)) (fun a c' b => a = b /\ c' = c1)); auto. intros i st c2 st' Hi [-> ->]. apply marg_step_follows; eauto.
  - intros st c2 st' [-> ->]. rewrite run_bind, (wipe_run (fun i => WrU i (UNum 0) (ret tt))) by reflexivity. cbn [rbind run ret follows].
    do 2 eexists. split; [reflexivity|]. split; auto. split; auto. intros i Hi. cbn [c_ud]. apply wipe_in. auto.
Qed.

(** most probable explanation *)
Definition conv (o : option (P * nat)) : uval := match o with Some p => UPair p | None => UNum 0 end.
Definition pairs (fl : nat -> bool) (c : cells) (ud : nat -> option (P * nat)) : Prop := c_flag c = fl /\ forall i, c_ud c i = conv (ud i).
Lemma readpair_follows fl i c ud : pairs fl c ud -> follows (run (readpair i) c) (get (ud i)) (fun a c' b => a = b /\ c' = c).
Proof. intros [_ E]. simpl. rewrite E. destruct (ud i); simpl; eauto. Qed.
Lemma mpe_node_follows fl nd c ud : pairs fl c ud -> follows (run (mpe_nodeP nd) c) (mpe_node ud nd) (fun a c' b => a = b /\ c' = c).
Proof.
  intros HP. unfold mpe_nodeP, mpe_node. destruct (n_body nd) as [l|v pt pf|es]; [simpl; eauto..|]. unfold mpe_best. eapply follows_bind.
  - apply (follows_fold mpe_elemP (mpe_elem ud) (fun a c' b => a = b /\ c' = c)); auto. intros e st c1 st' _ [-> ->]. destruct st' as [[best idx] k]. unfold mpe_elemP, mpe_elem.
    eapply follows_bind; [eapply readpair_follows; eauto|]. intros a c1 a' [-> ->]. eapply follows_bind; [eapply readpair_follows; eauto|]. intros b c1 b' [-> ->]. simpl. eauto.
  - intros r c1 r' [-> ->]. simpl. eauto.
Qed.
Lemma mpe_step_follows fl h i c ud : pairs fl c ud -> follows (run (mpe_stepP h tt i) c) (mpe_step h ud i) (fun _ c' ud' => pairs fl c' ud').
Proof.
  intros HP. unfold mpe_stepP, mpe_step. eapply follows_bind; [apply follows_Ret|]. intros nd c1 nd' [-> ->]. eapply follows_bind; [eapply mpe_node_follows; eauto|].
  intros r c1 r' [-> ->]. simpl. do 2 eexists. split; [reflexivity|]. destruct HP as [E1 E2]. split; auto. intros j. simpl. unfold set_at, set_ud. destruct (Nat.eqb j i); auto.
Qed.
Lemma mpe_queue_follows fl h c ud : pairs fl c ud -> forall fuel queue x,
  follows (run (mpe_queueP fuel h queue x) c) (mpe_queue fuel h ud queue x) (fun a c' b => a = b /\ c' = c).
Proof.
  intros HP fuel. induction fuel as [|f IH]; intros [|i queue] x; simpl mpe_queueP; simpl mpe_queue; try (simpl; eauto; fail).
  unfold node_of. destruct (nth_error h i) as [nd|]; [|reflexivity]. cbn [get bind pbind]. destruct (n_body nd) as [l|v pt pf|es].
  - apply IH.
  - eapply follows_bind; [eapply readpair_follows; eauto|]. intros r c1 r' [-> ->]. apply IH.
  - eapply follows_bind; [eapply readpair_follows; eauto|]. intros r c1 r' [-> ->]. destruct (nth_error es (snd r')) as [e|]; [|reflexivity]. simpl. apply IH.
Qed.
Lemma mpe_follows fuel h L (c : cells) ud : pairs (c_flag c) c ud ->
  follows (run (GetMPESolutionP fuel h L) c) (GetMPESolution fuel h L ud)
    (fun a c' b => a = fst b /\ c_flag c' = c_flag c /\ forall i, In i L -> c_ud c' i = UNum 0).
Proof.
  intros HP. unfold GetMPESolutionP, GetMPESolution. eapply follows_bind.
  - apply (follows_fold (mpe_stepP h) (mpe_step h) (fun _ c' ud' => pairs (c_flag c) c' ud')); auto. intros i [] c1 ud1 _ H1. apply mpe_step_follows; auto.
  - intros [] c1 ud1 H1. eapply follows_bind; [apply follows_Ret|]. intros r c2 r' [-> ->]. eapply follows_bind; [eapply readpair_follows; eauto|]. intros p c2 p' [-> ->].
    eapply follows_bind; [eapply mpe_queue_follows; eauto|]. intros x c2 x' [-> ->]. rewrite run_bind.
    assert (forall l c0, (forall i n, c_ud c0 i = UNum n -> n = 0) ->
      run (pfold (fun _ i => RdU i (fun u => match u with UNum (S _) => Ret UB | _ => WrU i (UNum 0) (ret tt) end)) l tt) c0 =
      (Ok tt, MkC (c_flag c0) (fold_left (fun u i => set_at u i (UNum 0)) l (c_ud c0)))) as W.
    { induction l as [|i l IH]; intros c0 Z; [destruct c0; reflexivity|]. simpl. destruct (c_ud c0 i) as [[|n]|q] eqn:E.
      - simpl. rewrite IH; [reflexivity|]. simpl. intros j n Hn. unfold set_at in Hn. destruct (Nat.eqb j i); [injection Hn as <-; auto|eauto].
      - exfalso. apply Z in E. discriminate.
      - simpl. rewrite IH; [reflexivity|]. simpl. intros j n Hn. unfold set_at in Hn. destruct (Nat.eqb j i); [injection Hn as <-; auto|eauto]. }
    destruct H1 as [F1 U1]. rewrite W.
    + simpl. do 2 eexists. split; [reflexivity|]. split; auto. split; auto. intros i Hi. cbn [c_ud]. apply wipe_in. auto.
    + intros i n E. rewrite U1 in E. destruct (ud1 i); simpl in E; congruence.
Qed.

(** ** Which fields a query uses *)
Definition qroot (q : query) : nat := match q with QEvaluate _ _ r | QModelCount r | QIsConsistent _ _ r | QGetMarginals r | QGetMPESolution _ r => r end.
Definition uses_flag (h : heap) (q : query) (i : nat) : Prop := match q with QIsConsistent _ _ r => reach h r i | _ => False end.
Definition uses_ud (h : heap) (q : query) (i : nat) : Prop := match q with QGetMarginals r | QGetMPESolution _ r => reach h r i | _ => False end.
Definition apart (h : heap) (q q' : query) : Prop := forall i, ~ (uses_flag h q i /\ uses_flag h q' i) /\ ~ (uses_ud h q i /\ uses_ud h q' i).
Definition qfoot (h : heap) (q : query) : foot :=
  match SerializePsddNodes h [qroot q] with
  | Ok L => match q with QIsConsistent _ _ _ => (L, []) | QGetMarginals _ | QGetMPESolution _ _ => ([], L) | _ => ([], []) end
  | _ => ([], [])
  end.
Lemma ser_closed h r L : ser_of h r L -> closedL h L.
Proof. intros S i nd j Hi E Hj. apply (so_in _ _ _ S) in Hi. apply (so_in _ _ _ S). eapply reach_snoc; eauto. Qed.
Lemma cons_touches h mask e L U : closedL h L -> touches L U (IsConsistentP h mask e L).
Proof.
  intros CL. unfold IsConsistentP. apply touches_bind.
  - apply touches_fold. intros [] i Hi. apply in_rev in Hi. unfold cons_stepP, node_of. destruct (nth_error h i) as [nd|] eqn:E; [|constructor]. cbn [get pbind].
    destruct (n_body nd) as [l|v pt pf|es] eqn:B.
    + destruct (if mask (lit_var l) then _ else true); repeat (constructor; auto).
    + repeat (constructor; auto).
    + apply touches_bind.
      * assert (forall x, In x es -> In (e_prime x) L /\ In (e_sub x) L) as IN.
        { intros x Hx. split; apply (CL i nd); auto; unfold children; rewrite B; apply in_or_app; [left|right]; apply in_map_iff; eauto. }
        clear B. induction es as [|x es IH]; [constructor|]. simpl. constructor; [apply IN; simpl; auto|]. intros [|].
        -- constructor; [apply IN; simpl; auto|]. intros [|]; [constructor|]. apply IH. intros y Hy. apply IN. simpl. auto.
        -- apply IH. intros y Hy. apply IN. simpl. auto.
      * intros [|]; repeat (constructor; auto).
  - intros _. destruct L as [|r L']; [constructor|]. simpl. constructor; [simpl; auto|]. intros b. constructor; [simpl; auto|]. apply touches_bind; [|intros _; constructor].
    apply touches_fold. intros [] i Hi. repeat (constructor; simpl; auto).
Qed.
Lemma readnum_touches F L i : In i L -> touches F L (readnum i).
Proof. intros H. constructor; auto. intros [n|p]; constructor. Qed.
Lemma readpair_touches F L i : In i L -> touches F L (readpair i).
Proof. intros H. constructor; auto. intros [n|p]; constructor. Qed.
Lemma push_touches F L d w ds i : In i L -> touches F L (marg_pushP d w ds i).
Proof.
  intros H. unfold marg_pushP. apply touches_bind; [apply readnum_touches; auto|]. intros k. apply touches_bind; [constructor|]. intros o. apply touches_bind; [apply readnum_touches; auto|].
  intros k'. apply touches_bind; [constructor|]. intros _. constructor.
Qed.
Lemma pbind_ok {A B} (a : A) (k : A -> prog B) : pbind (Ret (Ok a)) k = k a.
Proof. reflexivity. Qed.
Lemma marg_touches h L F : closedL h L -> touches F L (GetMarginalsP h L).
Proof.
  intros CL. unfold GetMarginalsP. destruct L as [|r L']; [constructor|]. set (L := r :: L') in *. apply touches_bind.
  - apply touches_fold. intros k i Hi. repeat (constructor; auto).
  - intros _. apply touches_bind.
    + apply touches_fold. intros [ds mg] i Hi. unfold marg_stepP, node_of. destruct (nth_error h i) as [nd|] eqn:E; [|constructor]. cbn [get].
      rewrite pbind_ok. apply touches_bind; [apply readnum_touches; auto|]. intros k. apply touches_bind; [constructor|]. intros d. destruct (n_body nd) as [l|v pt pf|es] eqn:B.
      * constructor.
      * apply touches_bind; [apply readnum_touches; auto|]. intros k2. apply touches_bind; [constructor|]. intros d2. constructor.
      * apply touches_bind; [|intros; constructor]. apply touches_fold. intros ds1 x Hx.
        assert (In (e_prime x) L /\ In (e_sub x) L) as [I1 I2].
        { split; apply (CL i nd); auto; unfold children; rewrite B; apply in_or_app; [left|right]; apply in_map_iff; eauto. }
        apply touches_bind; [apply push_touches; auto|]. intros ds2. apply push_touches; auto.
    + intros st. apply touches_bind; [|intros _; constructor]. apply touches_fold. intros [] i Hi. repeat (constructor; auto).
Qed.
Lemma mpe_queue_touches h L F : closedL h L -> forall fuel queue x, (forall i, In i queue -> In i L) -> touches F L (mpe_queueP fuel h queue x).
Proof.
  intros CL fuel. induction fuel as [|f IH]; intros [|i queue] x Q; cbn [mpe_queueP]; try (constructor; fail). unfold node_of. destruct (nth_error h i) as [nd|] eqn:E; [|constructor].
  cbn [get]. rewrite pbind_ok. assert (In i L) as Hi by (apply Q; simpl; auto). assert (forall j, In j queue -> In j L) as Q' by (intros j Hj; apply Q; simpl; auto).
  destruct (n_body nd) as [l|v pt pf|es] eqn:B; auto.
  - apply touches_bind; [apply readpair_touches; auto|]. intros r. auto.
  - apply touches_bind; [apply readpair_touches; auto|]. intros r. destruct (nth_error es (snd r)) as [x0|] eqn:N; [|constructor]. cbn [get]. rewrite pbind_ok. apply IH.
    apply nth_error_In in N. intros j Hj. apply in_app_or in Hj as [Hj|[<-|[<-|[]]]]; auto; apply (CL i nd); auto; unfold children; rewrite B; apply in_or_app; [left|right]; apply in_map_iff; eauto.
Qed.
Lemma mpe_touches fuel h L F : closedL h L -> touches F L (GetMPESolutionP fuel h L).
Proof.
  intros CL. unfold GetMPESolutionP. apply touches_bind.
  - apply touches_fold. intros [] i Hi. apply in_rev in Hi. unfold mpe_stepP, node_of. destruct (nth_error h i) as [nd|] eqn:E; [|constructor]. cbn [get]. rewrite pbind_ok.
    apply touches_bind; [|intros r; repeat (constructor; auto)]. unfold mpe_nodeP. destruct (n_body nd) as [l|v pt pf|es] eqn:B; [constructor..|].
    apply touches_bind; [|intros r; constructor]. apply touches_fold. intros [[best idx] k] x Hx.
    assert (In (e_prime x) L /\ In (e_sub x) L) as [I1 I2].
    { split; apply (CL i nd); auto; unfold children; rewrite B; apply in_or_app; [left|right]; apply in_map_iff; eauto. }
    unfold mpe_elemP. apply touches_bind; [apply readpair_touches; auto|]. intros a. apply touches_bind; [apply readpair_touches; auto|]. intros b. constructor.
  - intros _. destruct L as [|r L'] eqn:EL; [constructor|]. rewrite <- EL in *. assert (In r L) as Hr by (rewrite EL; simpl; auto). replace (front L) with (Ok r) by (rewrite EL; reflexivity).
    rewrite pbind_ok. apply touches_bind; [apply readpair_touches; auto|]. intros p. apply touches_bind.
    + apply mpe_queue_touches; auto. intros i [<-|[]]; auto.
    + intros x. apply touches_bind; [|intros _; constructor]. apply touches_fold. intros [] i Hi. constructor; auto. intros [[|n]|q]; repeat (constructor; auto).
Qed.
Lemma q_touches h vt q : heap_ok vt h -> qroot q < length h -> tfoot (qfoot h q) (qprog h q).
Proof.
  intros HO HR. unfold tfoot, qfoot, qprog. destruct (serialize_root h vt (qroot q) HO HR) as (L & S). rewrite (so_eq _ _ _ S). pose proof (ser_closed _ _ _ S) as CL.
  destruct q as [mask x r|r|mask e r|r|fuel r]; simpl in S; simpl fst; simpl snd; try rewrite (so_eq _ _ _ S); try rewrite pbind_ok; unfold lift; (apply touches_bind; [|intros; constructor]).
  - constructor.
  - constructor.
  - apply cons_touches; auto.
  - apply marg_touches; auto.
  - apply mpe_touches; auto.
Qed.
Lemma foot_flag h vt q i : heap_ok vt h -> qroot q < length h -> (In i (fst (qfoot h q)) <-> uses_flag h q i) /\ (In i (snd (qfoot h q)) <-> uses_ud h q i).
Proof.
  intros HO HR. unfold qfoot. destruct (serialize_root h vt (qroot q) HO HR) as (L & S). rewrite (so_eq _ _ _ S). pose proof (so_in _ _ _ S i) as I.
  destruct q as [mask x r|r|mask e r|r|fuel r]; simpl in *; tauto.
Qed.

(** ** The answer of a query alone, from clean cells *)
Definition cells0 : cells := MkC (fun _ => false) (fun _ => UNum 0).
Definition wiped (fp : foot) (c : cells) : Prop := (forall i, In i (fst fp) -> c_flag c i = false) /\ forall i, In i (snd fp) -> c_ud c i = UNum 0.
Lemma wipe_flag L : forall (f : nat -> bool) i, In i L \/ f i = false -> fold_left (fun f i => set_at f i false) L f i = false.
Proof.
  induction L as [|j L IH]; intros u i H; simpl; [destruct H as [[]|H]; auto|]. apply IH. unfold set_at. destruct (Nat.eqb_spec i j); auto. destruct H as [[<-|H]|H]; auto. contradiction.
Qed.
Lemma q_follows h vt q : heap_ok vt h -> qroot q < length h -> follows (run (qprog h q) cells0) (qalone h q) (fun a c b => a = b /\ wiped (qfoot h q) c).
Proof.
  intros HO HR. unfold qfoot. destruct (serialize_root h vt (qroot q) HO HR) as (L & S). rewrite (so_eq _ _ _ S). pose proof (ser_closed _ _ _ S) as CL.
  destruct q as [mask x r|r|mask e r|r|fuel r]; simpl in S; unfold qprog, qalone, IsConsistent, lift; try rewrite (so_eq _ _ _ S); try rewrite pbind_ok; cbn [bind].
  - eapply follows_bind; [apply follows_Ret|]. intros a c b [-> ->]. simpl. do 2 eexists. split; [reflexivity|]. split; auto. split; intros i [].
  - eapply follows_bind; [apply follows_Ret|]. intros a c b [-> ->]. simpl. do 2 eexists. split; [reflexivity|]. split; auto. split; intros i [].
  - pose proof (cons_follows h mask e L cells0) as F. cbn [c_flag cells0] in F. 
    destruct (IsConsistentNodes h mask e L (fun _ => false)) as [[b f]| | |] eqn:EI; cbn [follows bind] in F |- *; rewrite run_bind.
    + destruct F as (a & c & -> & E1 & E2 & E3). simpl in *. do 2 eexists. split; [reflexivity|]. split; [congruence|]. split; [|intros i []]. intros i Hi. simpl in Hi. rewrite E2.
      unfold IsConsistentNodes in EI. destruct (foldM _ (rev L) _); try discriminate. simpl in EI. destruct (front L); try discriminate. simpl in EI. injection EI as _ <-. apply wipe_flag. auto.
    + destruct (run _ _) as [[| | |] ?]; simpl in F; try discriminate; reflexivity.
    + destruct (run _ _) as [[| | |] ?]; simpl in F; try discriminate; reflexivity.
    + destruct (run _ _) as [[| | |] ?]; simpl in F; try discriminate; reflexivity.
  - eapply follows_bind; [apply marg_follows; auto|]. intros a c b (-> & E1 & E2). simpl. do 2 eexists. split; [reflexivity|]. split; auto. split; simpl; auto. intros i [].
  - eapply follows_bind; [apply (mpe_follows fuel h L cells0 (fun _ => None)); split; auto|]. intros a c b (-> & E1 & E2). simpl. do 2 eexists. split; [reflexivity|]. split; auto. split; simpl; auto. intros i [].
Qed.

(** ** The main theorem *)
Section Main.
Variables (m : mgr P) (qs : list query) (c : cells).
Notation h := (m_heap m).
Hypothesis W : Wf m.
Hypothesis RO : forall q, In q qs -> qroot q < length h.
Hypothesis AP : forall j k q q', j <> k -> nth_error qs j = Some q -> nth_error qs k = Some q' -> apart h q q'.
Hypothesis CC : clean c.
Lemma feet : pairwise (map (qfoot h) qs) /\ Forall2 tfoot (map (qfoot h) qs) (map (qprog h) qs).
Proof using W RO AP.
  split.
  - intros j k a b NE E1 E2. rewrite nth_error_map in E1, E2. destruct (nth_error qs j) as [q|] eqn:Q1; [|discriminate]. destruct (nth_error qs k) as [q'|] eqn:Q2; [|discriminate].
    simpl in E1, E2. injection E1 as <-. injection E2 as <-. pose proof (AP _ _ _ _ NE Q1 Q2) as A. apply nth_error_In in Q1, Q2.
    split; intros i H1 H2; destruct (foot_flag h _ q i (wf_heap _ W) (RO _ Q1)); destruct (foot_flag h _ q' i (wf_heap _ W) (RO _ Q2)); destruct (A i) as [A1 A2]; tauto.
  - clear AP CC. induction qs as [|q l IH]; simpl; constructor.
    + eapply q_touches; [apply (wf_heap _ W)|]. apply RO. simpl. auto.
    + apply IH. intros q' H. apply RO. simpl. auto.
Qed.
Lemma alone_clean q : In q qs -> fst (run (qprog h q) c) = qalone h q /\ ((exists a, qalone h q = Ok a) -> wiped (qfoot h q) (snd (run (qprog h q) c))).
Proof using W RO CC.
  intros HQ. pose proof (q_follows h _ q (wf_heap _ W) (RO _ HQ)) as F. pose proof (q_touches h _ q (wf_heap _ W) (RO _ HQ)) as T.
  destruct (touches_agree _ _ _ T c cells0) as [E A]; [split; intros i _; apply CC|]. rewrite E. destruct (qalone h q) as [b| | |]; simpl in F.
  - destruct F as (a & c' & EF & -> & [W1 W2]). rewrite EF in A |- *. simpl in A. simpl. split; auto. intros _. destruct A as [A1 A2]. split; intros i Hi; [rewrite A1|rewrite A2]; auto.
  - split; auto. intros [a Ha]; discriminate.
  - split; auto. intros [a Ha]; discriminate.
  - split; auto. intros [a Ha]; discriminate.
Qed.
Theorem thread_answer s k q r : tsteps (c, map (qprog h) qs) s -> nth_error qs k = Some q -> nth_error (snd s) k = Some (Ret r) -> r = qalone h q.
Proof using W RO AP CC.
  intros T Q R. destruct feet as [PW F2]. destruct (isolated _ _ _ T PW F2) as (_ & _ & SE). simpl in SE.
  destruct (SE k (qfoot h q) (qprog h q) (Ret r)) as [E _]; auto; [rewrite nth_error_map, Q; reflexivity..|]. simpl in E. rewrite E. apply alone_clean. eapply nth_error_In; eauto.
Qed.
Theorem all_answers s : tsteps (c, map (qprog h) qs) s -> finished s -> snd s = map (fun q => Ret (qalone h q)) qs.
Proof using W RO AP CC.
  intros T FN. destruct feet as [PW F2]. destruct (isolated _ _ _ T PW F2) as (F2' & _ & _). 
  assert (length (snd s) = length qs) as LE by (rewrite <- (map_length (qfoot h) qs); clear - F2'; induction F2'; simpl; auto).
  apply nth_ext with (d := Ret NoFuel) (d' := Ret NoFuel); [rewrite map_length; auto|]. intros k Hk.
  destruct (nth_error (snd s) k) as [p|] eqn:E; [|apply nth_error_None in E; lia]. pose proof E as E'. apply nth_error_In in E'. unfold finished in FN. rewrite Forall_forall in FN. destruct (FN _ E') as [r ->].
  rewrite (nth_error_nth _ _ _ E). destruct (nth_error qs k) as [q|] eqn:Q; [|apply nth_error_None in Q; lia]. rewrite (thread_answer _ _ _ _ T Q E).
  symmetry. apply nth_error_nth. rewrite nth_error_map, Q. reflexivity.
Qed.
Theorem clean_after s : tsteps (c, map (qprog h) qs) s -> finished s -> (forall q, In q qs -> exists a, qalone h q = Ok a) -> clean (fst s).
Proof using W RO AP CC.
  intros T FN OK. destruct feet as [PW F2]. destruct (isolated _ _ _ T PW F2) as (F2' & [O1 O2] & SE). simpl in SE, O1, O2. pose proof (all_answers _ T FN) as AA.
  assert (forall q, In q qs -> wiped (qfoot h q) (fst s)) as WI.
  { intros q HQ. destruct (In_nth_error _ _ HQ) as [k Q]. destruct (SE k (qfoot h q) (qprog h q) (Ret (qalone h q))) as [_ [A1 A2]].
    - rewrite nth_error_map, Q. reflexivity.
    - rewrite nth_error_map, Q. reflexivity.
    - rewrite AA, nth_error_map, Q. reflexivity.
    - simpl in A1, A2. destruct (proj2 (alone_clean q HQ) (OK q HQ)) as [W1 W2]. split; intros i Hi; [rewrite A1|rewrite A2]; auto. }
  intros i. split.
  - destruct (in_dec Nat.eq_dec i (concat (map fst (map (qfoot h) qs)))) as [H|H].
    + apply in_concat in H as (x & Hx & Hi). apply in_map_iff in Hx as (fp & <- & Hfp). apply in_map_iff in Hfp as (q & <- & HQ). apply (WI q HQ). auto.
    + rewrite O1; [apply CC|]. intros fp Hfp Hi. apply H. apply in_concat. exists (fst fp). split; auto. apply in_map. auto.
  - destruct (in_dec Nat.eq_dec i (concat (map snd (map (qfoot h) qs)))) as [H|H].
    + apply in_concat in H as (x & Hx & Hi). apply in_map_iff in Hx as (fp & <- & Hfp). apply in_map_iff in Hfp as (q & <- & HQ). apply (WI q HQ). auto.
    + rewrite O2; [apply CC|]. intros fp Hfp Hi. apply H. apply in_concat. exists (snd fp). split; auto. apply in_map. auto.
Qed.
End Main.
End Proofs.
