(** With a lock around each request every schedule has the effect of some order of whole requests. *)
From Verif Require Import Base Param Vtree Heap Race.

Lemma nth_upd {B} (l : list B) : forall t t' b, nth_error (upd l t b) t' = if Nat.eqb t t' then option_map (fun _ => b) (nth_error l t) else nth_error l t'.
Proof.
  induction l as [|x l IH]; intros [|t] [|t'] b; simpl; auto. destruct (Nat.eqb t t'); auto.
Qed.

Section P.
Context {P : pops} (root : vtree) {A : Type}.
Notation node := (node P). Notation shared := (@shared P). Notation prog := (@prog P A). Notation client := (@client P A). Notation mgr := (mgr P).

Record rel (st : shared) (m : mgr) : Prop := {
  r_vt : m_vt m = root;
  r_mem : forall p, nth_error (s_mem st) p = option_map (MkO p) (nth_error (m_heap m) p);
  r_table : s_table st = m_live m;
}.
Lemma rel_length st m : rel st m -> length (s_mem st) = length (m_heap m).
Proof.
  intros R. destruct (Nat.lt_trichotomy (length (s_mem st)) (length (m_heap m))) as [L|[L|L]]; auto.
  - pose proof (r_mem _ _ R (length (s_mem st))) as E. rewrite (proj2 (nth_error_None _ _)) in E by lia.
    destruct (nth_error (m_heap m) (length (s_mem st))) eqn:E2; [discriminate|]. apply nth_error_None in E2. lia.
  - pose proof (r_mem _ _ R (length (m_heap m))) as E. rewrite (proj2 (nth_error_None (m_heap m) _)) in E by lia.
    apply nth_error_None in E. lia.
Qed.
Lemma rel_index st m p : rel st m -> index_of st p = p.
Proof. intros R. unfold index_of. rewrite (r_mem _ _ R). destruct (nth_error (m_heap m) p); reflexivity. Qed.
Lemma rel_seen st m nd : rel st m -> seen st nd = nd.
Proof.
  intros R. unfold seen. destruct nd as [vt fl [l|v a b|es]]; simpl; auto. do 2 f_equal.
  rewrite <- (map_id es) at 2. apply map_ext. intros [a b w]. simpl. rewrite !(rel_index st m); auto.
Qed.
Lemma rel_build st m nd : rel st m -> build st nd = sorted nd.
Proof.
  intros R. unfold build, sorted, sort_elems. destruct (n_body nd) as [l|v a b|es]; auto. do 2 f_equal.
  assert (forall (e : elem P) l, insert_by (index_of st) e l = insert_elem e l) as I.
  { intros e. induction l as [|x l IH]; simpl; auto. rewrite !(rel_index st m) by auto. rewrite IH. reflexivity. }
  induction es as [|e es IH]; simpl; auto. rewrite IH, I. reflexivity.
Qed.
Definition hit (m : mgr) (nd : node) (i : nat) : bool := match nth_error (m_heap m) i with Some b => same_slot (m_vt m) nd b && equiv nd b | None => false end.
Lemma rel_matches st m nd p : rel st m -> matches root st nd p = hit m nd p.
Proof.
  intros R. unfold matches, hit. rewrite (r_mem _ _ R). destruct (nth_error (m_heap m) p) as [b|]; simpl; auto.
  rewrite !(rel_seen st m) by auto. rewrite (r_vt _ _ R). reflexivity.
Qed.
Lemma find_ext {B} (f g : B -> bool) l : (forall x, f x = g x) -> find f l = find g l.
Proof. intros E. induction l as [|x l IH]; simpl; auto. rewrite E, IH. reflexivity. Qed.
Lemma rel_find st m nd : rel st m -> find (matches root st nd) (s_table st) = find (hit m nd) (m_live m).
Proof. intros R. rewrite (r_table _ _ R). apply find_ext. intros p. apply rel_matches, R. Qed.

(** The parts of a request *)
Definition r5 (p n : nat) (k : nat -> prog) : prog := Step (fun st => (set_next st (S n), k p)).
Definition r4 (p : nat) (k : nat -> prog) : prog := Step (fun st => (st, r5 p (s_next st) k)).
Definition r3 (missing : bool) (ix : nat) (nd : node) (k : nat -> prog) : prog := Step (fun st => (store root st missing ix nd, r4 (length (s_mem st)) k)).
Definition r2 (ix : nat) (nd : node) (k : nat -> prog) : prog :=
  Step (fun st => (st, match find (matches root st nd) (s_table st) with
                       | Some p => k p
                       | None => r3 (negb (existsb (at_slot root st nd) (s_table st))) ix nd k
                       end)).
Lemma request_parts nd k : request root nd k = Step (fun st => (st, r2 (s_next st) (build st nd) k)).
Proof. reflexivity. Qed.
Definition unlock (k : nat -> client) (p : nat) : prog := Step (fun st => (set_lock st false, locked root (k p))).
Lemma locked_ask nd k : locked root (Ask nd k) = Acquire (request root nd (unlock k)).
Proof. reflexivity. Qed.

(** A thread inside a locked request *)
Definition inside (st : shared) (m : mgr) (nd : node) (k : nat -> client) (q : prog) : Prop :=
  (rel st m /\ s_next st = length (m_heap m) /\
    (q = request root nd (unlock k) \/
     q = r2 (length (m_heap m)) (sorted nd) (unlock k) \/
     (q = r3 (negb (existsb (at_slot root st (sorted nd)) (s_table st))) (length (m_heap m)) (sorted nd) (unlock k) /\ find (hit m (sorted nd)) (m_live m) = None))) \/
  (exists i m', GetUniqueNode m (sorted nd) = (i, m') /\ rel st m' /\
    ((s_next st = length (m_heap m) /\ length (m_heap m') = S (length (m_heap m)) /\ (q = r4 i (unlock k) \/ q = r5 i (length (m_heap m)) (unlock k))) \/
     (s_next st = length (m_heap m') /\ q = unlock k i))).
Definition outside (ps : list prog) (cs : list client) (t : nat) : Prop := nth_error ps t = option_map (locked root) (nth_error cs t).
Definition inv (x : shared * list prog) (y : mgr * list client) : Prop :=
  (s_lock (fst x) = false /\ rel (fst x) (fst y) /\ s_next (fst x) = length (m_heap (fst y)) /\ forall t, outside (snd x) (snd y) t) \/
  (s_lock (fst x) = true /\ exists t0 nd k q, nth_error (snd y) t0 = Some (Ask nd k) /\ nth_error (snd x) t0 = Some q /\ inside (fst x) (fst y) nd k q /\
     forall t, t <> t0 -> outside (snd x) (snd y) t).

Lemma rel_lock st m b : rel st m -> rel (set_lock st b) m.
Proof. intros [V M T]. constructor; auto. Qed.
Lemma rel_next st m n : rel st m -> rel (set_next st n) m.
Proof. intros [V M T]. constructor; auto. Qed.
Lemma unique_eq (m : mgr) nd : GetUniqueNode m nd =
  match find (hit m nd) (m_live m) with
  | Some i => (i, m)
  | None => (length (m_heap m), MkM (m_vt m) (m_heap m ++ [nd]) (m_live m ++ [length (m_heap m)]))
  end.
Proof. reflexivity. Qed.
Lemma rel_store st m nd : rel st m -> find (hit m nd) (m_live m) = None ->
  rel (store root st (negb (existsb (at_slot root st nd) (s_table st))) (length (m_heap m)) nd) (MkM (m_vt m) (m_heap m ++ [nd]) (m_live m ++ [length (m_heap m)])).
Proof.
  intros R F. pose proof (rel_length _ _ R) as L. constructor; simpl.
  - apply (r_vt _ _ R).
  - intros p. destruct (Nat.lt_trichotomy p (length (s_mem st))) as [H|[->|H]].
    + rewrite !nth_error_app1 by lia. apply (r_mem _ _ R).
    + rewrite nth_error_app2, Nat.sub_diag by lia. rewrite L, nth_error_app2, Nat.sub_diag by lia. reflexivity.
    + rewrite !(proj2 (nth_error_None _ _)); auto; rewrite app_length; simpl; lia.
  - rewrite L, (r_table _ _ R). destruct (existsb (at_slot root st nd) (m_live m)) eqn:E; simpl.
    + destruct (existsb (matches root st nd) (m_live m)) eqn:E2; auto. exfalso. apply existsb_exists in E2 as (p & Hp & E2).
      rewrite (rel_matches st m) in E2 by auto. pose proof (find_none _ _ F p Hp). congruence.
    + f_equal. clear -E. induction (m_live m) as [|p l IH]; simpl in *; auto. apply orb_false_iff in E as [E1 E]. rewrite E1. simpl. rewrite IH; auto.
Qed.
Lemma move_inside st m nd k f : s_lock st = true -> inside st m nd k (Step f) ->
  (s_lock (fst (f st)) = true /\ inside (fst (f st)) m nd k (snd (f st))) \/
  (exists i m', GetUniqueNode m (sorted nd) = (i, m') /\ f st = (set_lock st false, locked root (k i)) /\ rel st m' /\ s_next st = length (m_heap m')).
Proof.
  intros LK [(R & X & [E|[E|[E F]]])|(i & m' & G & R & [(X & L & [E|E])|[X E]])].
  - left. rewrite request_parts in E. injection E as ->. simpl. split; auto. left. split; auto. split; auto. rewrite X, (rel_build st m) by auto. auto.
  - left. injection E as ->. simpl. split; auto. rewrite (rel_find st m) by auto. destruct (find (hit m (sorted nd)) (m_live m)) as [i|] eqn:F.
    + right. exists i, m. rewrite unique_eq, F. auto 6.
    + left. split; auto.
  - left. injection E as ->. simpl. split; auto. right. do 2 eexists. rewrite unique_eq, F. split; [reflexivity|]. split; [apply rel_store; auto|].
    left. simpl. split; auto. split; [rewrite app_length; simpl; lia|]. rewrite (rel_length st m) by auto. auto.
  - left. injection E as ->. simpl. split; auto. right. exists i, m'. split; auto. split; auto. left. rewrite X. auto.
  - left. injection E as ->. simpl. split; auto. right. exists i, m'. split; auto. split; [apply rel_next; auto|]. right. split; auto.
  - right. exists i, m'. injection E as ->. auto.
Qed.
Lemma inside_step st m nd k q : inside st m nd k q -> exists f, q = Step f.
Proof.
  intros [(R & X & [->|[->|[-> F]]])|(i & m' & G & R & [(X & L & [-> | ->])|[X ->]])]; eexists; try reflexivity.
Qed.
Lemma move_inv x y t : inv x y -> exists s, inv (move x t) (one_by_one s y).
Proof.
  destruct x as [st ps], y as [m cs]. intros [(LK & R & X & O)|(LK & t0 & nd & k & q & C & Q & I & O)]; simpl in *.
  - exists []. simpl. unfold move. simpl. pose proof (O t) as Ot. unfold outside in Ot. simpl in Ot. rewrite Ot.
    destruct (nth_error cs t) as [[a|nd k]|] eqn:C; simpl.
    + left. simpl. auto.
    + rewrite LK. right. simpl. split; auto. exists t, nd, k, (request root nd (unlock k)). split; auto. split.
      { rewrite nth_upd, Nat.eqb_refl, Ot. reflexivity. }
      split; [left; split; [apply rel_lock; auto|split; auto]|].
      intros t' NE. unfold outside. rewrite nth_upd. destruct (Nat.eqb_spec t t'); [congruence|]. apply O.
    + left. simpl. auto.
  - destruct (inside_step _ _ _ _ _ I) as (f & ->). destruct (Nat.eq_dec t t0) as [->|NE].
    + unfold move. simpl. rewrite Q. destruct (move_inside st m nd k f LK I) as [(LK1 & I1)|(i & m' & G & E & R & X)].
      * exists []. simpl. right. simpl. split; auto. exists t0, nd, k, (snd (f st)). split; auto. split.
        { rewrite nth_upd, Nat.eqb_refl, Q. reflexivity. }
        split; auto. intros t' NE. unfold outside. rewrite nth_upd. destruct (Nat.eqb_spec t0 t'); [congruence|]. apply O; auto.
      * exists [t0]. simpl. unfold ask. simpl. rewrite C, G, E. left. simpl. split; auto. split; [apply rel_lock; auto|]. split; auto.
        intros t'. unfold outside. rewrite !nth_upd. destruct (Nat.eqb_spec t0 t') as [<-|N]; [rewrite Q, C; reflexivity|]. apply O; auto.
    + exists []. simpl. unfold move. simpl. pose proof (O t NE) as Ot. unfold outside in Ot. rewrite Ot.
      destruct (nth_error cs t) as [[a|nd' k']|]; simpl; rewrite ?LK; right; simpl; split; auto; exists t0, nd, k, (Step f); auto.
Qed.
Lemma exec_inv sch : forall x y, inv x y -> exists s, inv (exec sch x) (one_by_one s y).
Proof.
  induction sch as [|t sch IH]; intros x y I; simpl; [exists []; auto|].
  destruct (move_inv x y t I) as (s1 & I1). destruct (IH _ _ I1) as (s2 & I2). exists (s1 ++ s2). unfold one_by_one. rewrite fold_left_app. exact I2.
Qed.
Lemma inv_ret x y t a : inv x y -> nth_error (snd x) t = Some (Ret a) -> nth_error (snd y) t = Some (Done a).
Proof.
  destruct x as [st ps], y as [m cs]. intros [(LK & R & X & O)|(LK & t0 & nd & k & q & C & Q & I & O)] H; simpl in *.
  - specialize (O t). unfold outside in O. rewrite H in O. destruct (nth_error cs t) as [[b|nd k]|]; simpl in O; congruence.
  - destruct (Nat.eq_dec t t0) as [->|NE].
    + destruct (inside_step _ _ _ _ _ I) as (f & ->). congruence.
    + specialize (O t NE). unfold outside in O. rewrite H in O. destruct (nth_error cs t) as [[b|nd' k']|]; simpl in O; congruence.
Qed.
Lemma start_inv cs : inv (nothing, map (locked root) cs) (new_mgr root, cs).
Proof.
  left. simpl. split; auto. split; [constructor; auto; intros [|p]; reflexivity|]. split; auto. intros t. unfold outside. rewrite nth_error_map. reflexivity.
Qed.

(** One request at a time: the table holds no two equivalent nodes of one position *)
Definition single (m : mgr) : Prop := m_vt m = root /\ (forall i, In i (m_live m) -> i < length (m_heap m)) /\
  forall i j a b, In i (m_live m) -> In j (m_live m) -> nth_error (m_heap m) i = Some a -> nth_error (m_heap m) j = Some b ->
    same_slot root a b = true -> equiv a b = true -> i = j.
Lemma equiv_sym (a b : node) : equiv a b = equiv b a.
Proof. unfold equiv. apply andb_comm. Qed.
Lemma slot_sym (a b : node) : same_slot root a b = same_slot root b a.
Proof. unfold same_slot. rewrite Nat.eqb_sym. destruct (n_body a), (n_body b); reflexivity. Qed.
Lemma single_unique m nd : single m -> single (snd (GetUniqueNode m nd)).
Proof.
  intros (V & L & S). rewrite unique_eq. destruct (find (hit m nd) (m_live m)) as [i|] eqn:F; simpl; [split; auto|]. split; [exact V|].
  assert (forall j b, In j (m_live m) -> nth_error (m_heap m) j = Some b -> same_slot root nd b = true -> equiv nd b = true -> False) as NH.
  { intros j b Hj Hb S1 E1. pose proof (find_none _ _ F j Hj) as H. unfold hit in H. rewrite Hb, V, S1, E1 in H. discriminate. }
  split.
  - simpl. intros i Hi. rewrite app_length. simpl. apply in_app_or in Hi as [Hi|[<-|[]]]; [|lia]. specialize (L i Hi). lia.
  - intros i j a b Hi Hj Ha Hb SL EQ. apply in_app_or in Hi. apply in_app_or in Hj.
    assert (forall i a, In i (m_live m) -> nth_error (m_heap m ++ [nd]) i = Some a -> nth_error (m_heap m) i = Some a) as OLD.
    { intros i0 a0 H0 H1. rewrite nth_error_app1 in H1; auto. }
    assert (forall a, nth_error (m_heap m ++ [nd]) (length (m_heap m)) = Some a -> a = nd) as NEW.
    { intros a0 H0. rewrite nth_error_app2, Nat.sub_diag in H0 by lia. simpl in H0. congruence. }
    destruct Hi as [Hi|[<-|[]]], Hj as [Hj|[<-|[]]]; auto.
    + eapply S; eauto.
    + exfalso. apply NEW in Hb as ->. apply OLD in Ha; auto. rewrite slot_sym in SL. rewrite equiv_sym in EQ. eapply NH; eauto.
    + exfalso. apply NEW in Ha as ->. apply OLD in Hb; auto. eapply NH; eauto.
Qed.
Lemma single_one s : forall y, single (fst y) -> single (fst (@one_by_one P A s y)).
Proof.
  induction s as [|t s IH]; intros y H; simpl; auto. apply IH. unfold ask. destruct (nth_error (snd y) t) as [[a|nd k]|]; auto. simpl. apply single_unique, H.
Qed.
Theorem locked_full (cs : list client) sch : exists s, let x := exec sch (nothing, map (locked root) cs) in let y := one_by_one s (new_mgr root, cs) in
  (forall t a, nth_error (snd x) t = Some (Ret a) -> nth_error (snd y) t = Some (Done a)) /\ single (fst y) /\
  (s_lock (fst x) = false -> (forall p, nth_error (s_mem (fst x)) p = option_map (MkO p) (nth_error (m_heap (fst y)) p)) /\ s_table (fst x) = m_live (fst y)).
Proof.
  destruct (exec_inv sch _ _ (start_inv cs)) as (s & I). exists s. cbv zeta. split; [intros t a; apply (inv_ret _ _ _ _ I)|]. split.
  - apply single_one. simpl. split; auto. split; [intros i []|intros i j a b []].
  - intros LK. destruct I as [(_ & R & _)|(LK' & _)]; [|congruence]. split; [apply (r_mem _ _ R)|apply (r_table _ _ R)].
Qed.
(** No deadlock: as long as a thread has not ended, some thread can make an access *)
Lemma locked_goes_on (cs : list client) sch : let x := exec sch (nothing, map (locked root) cs) in
  (forall t q, nth_error (snd x) t = Some q -> exists a, q = Ret a) \/
  exists t, (exists f, nth_error (snd x) t = Some (Step f)) \/ (s_lock (fst x) = false /\ exists q, nth_error (snd x) t = Some (Acquire q)).
Proof.
  cbv zeta. destruct (exec_inv sch _ _ (start_inv cs)) as (s & I). destruct I as [(LK & R & X & O)|(LK & t0 & nd & k & q & C & Q & I & O)].
  - set (ps := snd (exec sch (nothing, map (locked root) cs))) in *. set (ds := snd (one_by_one s (new_mgr root, cs))) in *.
    destruct (existsb (fun q => match q with Ret _ => false | _ => true end) ps) eqn:E.
    + right. apply existsb_exists in E as (q & Hq & E). apply In_nth_error in Hq as (t & Ht). exists t. destruct q as [a|f|q]; [discriminate|eauto|eauto].
    + left. intros t q Hq. destruct q as [a|f|q]; [eauto| |]; exfalso;
        (assert (existsb (fun q => match q with Ret _ => false | _ => true end) ps = true) as Y; [|congruence]); apply existsb_exists; eexists; (split; [eapply nth_error_In; eauto|auto]).
  - right. exists t0. left. destruct (inside_step _ _ _ _ _ I) as (f & ->). exists f. exact Q.
Qed.
End P.
