(** Proofs about Kahypar.v: the hypergraph is the network's, and what PartitionGraph puts on top are the hyperedges the partition cuts. *)
From Coq Require Import Ascii String.
From Verif Require Import Base Vtree Text Csv VtreeGen HyperProofs Kahypar.

(** ** The map from variables to factors *)
Definition val (m : list (N * list nat)) (v : N) : list nat := match Nlookup v m with Some l => l | None => [] end.
Lemma add_val i m v w : val (add_factor i m v) w = val m w ++ if N.eqb w v then [i] else [].
Proof.
  unfold val. induction m as [|[u l] m IH]; simpl.
  - destruct (N.eqb w v) eqn:E; reflexivity.
  - destruct (N.eqb u v) eqn:E1; simpl.
    + apply N.eqb_eq in E1 as ->. destruct (N.eqb w v); [reflexivity|]. rewrite app_nil_r. reflexivity.
    + destruct (N.eqb w u) eqn:E2; [|exact IH]. apply N.eqb_eq in E2 as ->. rewrite E1, app_nil_r. reflexivity.
Qed.
Lemma add_keys i m v : map fst (add_factor i m v) = map fst m ++ if existsb (N.eqb v) (map fst m) then [] else [v].
Proof.
  induction m as [|[u l] m IH]; simpl; [reflexivity|]. rewrite (N.eqb_sym v u). destruct (N.eqb u v) eqn:E; simpl; [rewrite app_nil_r; reflexivity|].
  rewrite IH. reflexivity.
Qed.
Lemma mem_eq v l : existsb (N.eqb v) l = true <-> In v l.
Proof. rewrite existsb_exists. split; [intros (x & H & E); apply N.eqb_eq in E as ->; exact H|intros H; exists v; split; auto; apply N.eqb_refl]. Qed.
Lemma add_nodup i m v : NoDup (map fst m) -> NoDup (map fst (add_factor i m v)).
Proof.
  rewrite add_keys. intros H. destruct (existsb (N.eqb v) (map fst m)) eqn:E; [rewrite app_nil_r; exact H|].
  apply (Permutation_NoDup (Permutation_cons_append _ _)). constructor; auto. intros I. apply mem_eq in I. congruence.
Qed.
Lemma add_in i m v w : In w (map fst (add_factor i m v)) <-> In w (map fst m) \/ w = v.
Proof.
  rewrite add_keys, in_app_iff. destruct (existsb (N.eqb v) (map fst m)) eqn:E; simpl; [|intuition]. apply mem_eq in E. split; [intuition|]. intros [H| ->]; auto.
Qed.
Lemma scope_val i sc : forall m w, val (fold_left (add_factor i) sc m) w = val m w ++ repeat i (count_occ N.eq_dec sc w).
Proof.
  induction sc as [|v sc IH]; intros m w; simpl; [rewrite app_nil_r; reflexivity|]. rewrite IH, add_val, <- app_assoc. f_equal.
  destruct (N.eq_dec v w) as [->|NE]; [rewrite N.eqb_refl; reflexivity|]. destruct (N.eqb w v) eqn:E; [apply N.eqb_eq in E; congruence|reflexivity].
Qed.
Lemma scope_keys i sc : forall m, NoDup (map fst m) ->
  NoDup (map fst (fold_left (add_factor i) sc m)) /\ forall w, In w (map fst (fold_left (add_factor i) sc m)) <-> In w (map fst m) \/ In w sc.
Proof.
  induction sc as [|v sc IH]; intros m H; simpl; [split; auto; intuition|]. destruct (IH _ (add_nodup i m v H)) as [A B]. split; auto.
  intros w. rewrite B, add_in. intuition.
Qed.
(** the factors with variable v, each as often as v is in its scope *)
Definition occs (v : N) (l : list (nat * list N)) : list nat := flat_map (fun x => repeat (fst x) (count_occ N.eq_dec (snd x) v)) l.
Notation index_step := (fun m x => fold_left (add_factor (fst x)) (snd x) m).
Lemma all_val l : forall m w, val (fold_left index_step l m) w = val m w ++ occs w l.
Proof.
  induction l as [|x l IH]; intros m w; simpl; [rewrite app_nil_r; reflexivity|]. rewrite IH, scope_val, <- app_assoc. reflexivity.
Qed.
Lemma all_keys (l : list (nat * list N)) : forall m, NoDup (map fst m) ->
  NoDup (map fst (fold_left index_step l m)) /\ forall w, In w (map fst (fold_left index_step l m)) <-> In w (map fst m) \/ In w (concat (map snd l)).
Proof.
  induction l as [|x l IH]; intros m H; simpl; [split; auto; intuition|]. destruct (scope_keys (fst x) (snd x) m H) as [A B].
  destruct (IH _ A) as [C D]. split; auto. intros w. rewrite D, B, in_app_iff. intuition.
Qed.
Lemma map_snd_combine {A B} (f : list A) : forall g : list B, length f = length g -> map snd (combine f g) = g.
Proof. induction f as [|x f IH]; intros [|y g] E; simpl in *; try discriminate; auto. rewrite IH by lia. reflexivity. Qed.
Notation numbered scopes := (combine (seq 0 (length scopes)) scopes).
Lemma indexes_keys scopes : NoDup (map fst (factor_indexes scopes)) /\ forall w, In w (map fst (factor_indexes scopes)) <-> In w (concat scopes).
Proof.
  destruct (all_keys (numbered scopes) [] (NoDup_nil _)) as [A B]. split; auto. intros w. unfold factor_indexes. rewrite B. simpl.
  rewrite map_snd_combine by apply seq_length. intuition.
Qed.
Lemma lookup_in (m : list (N * list nat)) v l : NoDup (map fst m) -> In (v, l) m -> val m v = l.
Proof.
  unfold val. induction m as [|[u k] m IH]; simpl; intros H I; [contradiction|]. apply NoDup_cons_iff in H as [H1 H2].
  destruct I as [E|I]; [injection E as -> ->; rewrite N.eqb_refl; reflexivity|]. destruct (N.eqb v u) eqn:E; [|auto].
  apply N.eqb_eq in E as ->. exfalso. apply H1. apply in_map_iff. exists (u, l). auto.
Qed.
Lemma indexes_in scopes v l : In (v, l) (factor_indexes scopes) -> l = occs v (numbered scopes).
Proof. intros I. rewrite <- (lookup_in _ _ _ (proj1 (indexes_keys scopes)) I). unfold factor_indexes. rewrite all_val. reflexivity. Qed.

Lemma count_repeat i j n : count_occ Nat.eq_dec (repeat i n) j = if Nat.eq_dec i j then n else 0.
Proof. induction n as [|n IH]; simpl; [destruct (Nat.eq_dec i j); reflexivity|]. rewrite IH. destruct (Nat.eq_dec i j); reflexivity. Qed.
Lemma occs_count v scopes : forall a i, count_occ Nat.eq_dec (occs v (combine (seq a (length scopes)) scopes)) (a + i) =
  match nth_error scopes i with Some sc => count_occ N.eq_dec sc v | None => 0 end.
Proof.
  unfold occs. induction scopes as [|s scopes IH]; intros a i; simpl; [destruct i; reflexivity|]. rewrite count_occ_app, count_repeat. destruct i as [|i]; simpl.
  - replace (a + 0) with a by lia. destruct (Nat.eq_dec a a) as [_|]; [|contradiction].
    match goal with |- _ + count_occ _ ?l a = _ => assert (~ In a l) as NI end.
    { intros I. apply in_flat_map in I as ([j t] & H1 & H2). apply repeat_spec in H2. simpl in H2. subst j. apply in_combine_l in H1. apply in_seq in H1. lia. }
    apply (count_occ_not_In Nat.eq_dec) in NI. rewrite NI. lia.
  - destruct (Nat.eq_dec a (a + S i)) as [E|_]; [lia|]. replace (a + S i) with (S a + i) by lia. rewrite IH. reflexivity.
Qed.
Lemma occs_in v scopes i : In i (occs v (numbered scopes)) <-> exists sc, nth_error scopes i = Some sc /\ In v sc.
Proof.
  rewrite (count_occ_In Nat.eq_dec). pose proof (occs_count v scopes 0 i) as OC. simpl in OC. rewrite OC. clear OC. destruct (nth_error scopes i) as [sc|].
  - split; [intros H; exists sc; split; auto; apply (count_occ_In N.eq_dec); lia|intros (sc' & E & H); injection E as <-; apply (count_occ_In N.eq_dec) in H; lia].
  - split; [lia|intros (sc & E & _); discriminate].
Qed.

(** ** The arrays *)
Definition slice (eptr eind : list nat) (k : nat) : list nat :=
  match nth_error eptr k, nth_error eptr (S k) with Some a, Some b => firstn (b - a) (skipn a eind) | _, _ => [] end.
Lemma pins_snoc m e : pins (m ++ [e]) = pins_step (pins m) e.
Proof. unfold pins. rewrite fold_left_app. reflexivity. Qed.
Lemma pins_spec m : snd (pins m) = concat (map snd m) /\ length (fst (pins m)) = S (length m) /\ nth_error (fst (pins m)) 0 = Some 0 /\
  nth_error (fst (pins m)) (length m) = Some (length (snd (pins m))) /\
  forall k e, nth_error m k = Some e -> exists a, nth_error (fst (pins m)) k = Some a /\ nth_error (fst (pins m)) (S k) = Some (a + length (snd e)) /\
    a + length (snd e) <= length (snd (pins m)) /\ firstn (length (snd e)) (skipn a (snd (pins m))) = snd e.
Proof.
  induction m as [|e m IH] using rev_ind.
  - simpl. repeat split; auto. intros [|k] e; discriminate.
  - rewrite pins_snoc. destruct (pins m) as [p q]. unfold pins_step. cbn [fst snd] in *. destruct IH as (I1 & I2 & I3 & I4 & I5).
    split; [rewrite map_app, concat_app; simpl; rewrite app_nil_r, I1; reflexivity|]. rewrite !app_length. cbn [length]. split; [lia|].
    split; [rewrite nth_error_app1 by lia; exact I3|]. split.
    { rewrite nth_error_app2 by lia. replace (length m + 1 - length p) with 0 by lia. reflexivity. }
    intros k e' E. destruct (Nat.lt_ge_cases k (length m)) as [L|L].
    + rewrite nth_error_app1 in E by auto. destruct (I5 k e' E) as (a & A1 & A2 & A3 & A4). exists a.
      rewrite !nth_error_app1 by lia. split; auto. split; auto. split; [lia|]. rewrite skipn_app, firstn_app.
      replace (length (snd e') - length (skipn a q)) with 0 by (rewrite skipn_length; lia). rewrite firstn_O, app_nil_r. exact A4.
    + assert (k < length (m ++ [e])) as L2 by (apply nth_error_Some; congruence). rewrite app_length in L2. simpl in L2.
      assert (k = length m) as -> by lia. rewrite nth_error_app2, Nat.sub_diag in E by lia. injection E as <-.
      exists (length q). rewrite nth_error_app1 by lia. split; auto. split.
      { rewrite nth_error_app2 by lia. replace (S (length m) - length p) with 0 by lia. reflexivity. }
      split; [lia|]. rewrite skipn_app, skipn_all2, Nat.sub_diag by lia. simpl. apply firstn_all.
Qed.
Theorem hypergraph_spec ord scopes nv ne eptr eind : (forall m, Permutation (ord m) m) -> hypergraph ord scopes = (nv, ne, eptr, eind) ->
  nv = length scopes /\ exists vars, NoDup vars /\ (forall v, In v vars <-> exists S, In S scopes /\ In v S) /\
    ne = length vars /\ length eptr = S ne /\ nth_error eptr 0 = Some 0 /\ nth_error eptr ne = Some (length eind) /\
    forall k v, nth_error vars k = Some v -> exists a b, nth_error eptr k = Some a /\ nth_error eptr (S k) = Some b /\ a <= b /\ b <= length eind /\
      firstn (b - a) (skipn a eind) = occs v (numbered scopes).
Proof.
  intros O. unfold hypergraph. specialize (O (factor_indexes scopes)). set (m := ord (factor_indexes scopes)) in *. destruct (pins_spec m) as (P1 & P2 & P3 & P4 & P5).
  destruct (pins m) as [p q]. cbn [fst snd] in *. intros E. injection E as <- <- <- <-. destruct (indexes_keys scopes) as [K1 K2]. split; auto. exists (map fst m).
  pose proof (Permutation_map fst O) as PM. rewrite map_length. pose proof (Permutation_length O) as PL. rewrite PL in P2, P4.
  split; [exact (Permutation_NoDup (Permutation_sym PM) K1)|]. split.
  { intros v. rewrite <- In_concat, <- K2. split; apply Permutation_in; [exact PM|exact (Permutation_sym PM)]. }
  split; [symmetry; exact PL|]. split; auto. split; auto. split; auto. intros k v E. rewrite nth_error_map in E. destruct (nth_error m k) as [[w l]|] eqn:Em; [|discriminate].
  simpl in E. injection E as ->. destruct (P5 k _ Em) as (a & A1 & A2 & A3 & A4). cbn [snd] in *. exists a, (a + length l). split; auto. split; auto. split; [lia|]. split; auto.
  rewrite (Nat.add_comm a), Nat.add_sub. rewrite A4. apply indexes_in. apply (Permutation_in _ O). apply (nth_error_In _ _ Em).
Qed.

(** ** The cut *)
Lemma nth_combine {A B} k (a : A) (b : B) : forall l1 l2, nth_error (combine l1 l2) k = Some (a, b) -> nth_error l1 k = Some a /\ nth_error l2 k = Some b.
Proof.
  induction k as [|k IH]; intros l1 l2 H; destruct l1 as [|x l1], l2 as [|y l2]; simpl in *; try discriminate; [injection H as -> ->; auto|]. apply IH. exact H.
Qed.
Lemma combine_nth {A B} k (a : A) (b : B) : forall l1 l2, nth_error l1 k = Some a -> nth_error l2 k = Some b -> nth_error (combine l1 l2) k = Some (a, b).
Proof.
  induction k as [|k IH]; intros l1 l2 H1 H2; destruct l1 as [|x l1], l2 as [|y l2]; simpl in *; try discriminate; [congruence|]. apply IH; auto.
Qed.
Lemma in_block block b scopes S : In S (block_scopes block b scopes) <-> exists i, nth_error scopes i = Some S /\ block i = b.
Proof.
  unfold block_scopes. rewrite in_map_iff. split.
  - intros ([i s] & E & H). simpl in E. subst s. apply filter_In in H as [H E]. simpl in E. apply Bool.eqb_prop in E. exists i. split; auto.
    apply In_nth_error in H as [k H]. assert (nth_error (seq 0 (length scopes)) k = Some i /\ nth_error scopes k = Some S) as [H1 H2].
    { apply nth_combine. exact H. }
    assert (i = k) as ->; [|exact H2]. assert (k < length scopes) as L by (apply nth_error_Some; congruence).
    rewrite (nth_error_nth' _ 0) in H1 by (rewrite seq_length; exact L). injection H1 as <-. apply seq_nth. exact L.
  - intros (i & E & B). exists (i, S). split; auto. apply filter_In. split; [|simpl; rewrite B; apply Bool.eqb_reflx].
    assert (i < length scopes) as L by (apply nth_error_Some; congruence). apply (nth_error_In _ i).
    assert (nth_error (seq 0 (length scopes)) i = Some i) as E2 by (rewrite (nth_error_nth' _ 0) by (rewrite seq_length; exact L); rewrite seq_nth by exact L; reflexivity).
    apply combine_nth; auto.
Qed.
Definition cut_edge (block : nat -> bool) (eptr eind : list nat) (k : nat) : bool :=
  let e := slice eptr eind k in existsb block e && existsb (fun i => negb (block i)) e.
Theorem context_spec ord block scopes lf rf ctx : (forall l, Permutation (ord l) l) -> PartitionGraph ord block scopes = (lf, rf, ctx) ->
  NoDup ctx /\ forall v, In v ctx <-> (exists i S, nth_error scopes i = Some S /\ In v S /\ block i = true) /\ (exists i S, nth_error scopes i = Some S /\ In v S /\ block i = false).
Proof.
  intros O E. unfold PartitionGraph in E. injection E as _ _ <-. split.
  - apply NoDup_filter. apply (Permutation_NoDup (Permutation_sym (O _))). apply NoDup_distinct.
  - intros v. rewrite filter_In. assert (forall l, In v (ord l) <-> In v l) as OI by (intros l; split; apply Permutation_in; [apply O|apply Permutation_sym, O]).
    rewrite OI. clear OI.
    assert (forall b, In v (distinct (concat (block_scopes block b scopes))) <-> exists i S, nth_error scopes i = Some S /\ In v S /\ block i = b) as Q.
    { intros b. rewrite In_distinct, In_concat. split.
      - intros (S & H1 & H2). apply in_block in H1 as (i & E & B). exists i, S. auto.
      - intros (i & S & E & H & B). exists S. split; auto. apply in_block. exists i. auto. }
    rewrite Q. unfold NmemB. rewrite (existsb_exists). split.
    + intros [H1 (x & H2 & E)]. apply N.eqb_eq in E as <-. split; auto. apply Q. exact H2.
    + intros [H1 H2]. split; auto. exists v. split; [apply Q; exact H1|apply N.eqb_refl].
Qed.
Lemma filter_map_length {A B} (f : A -> B) (g : B -> bool) l : length (filter g (map f l)) = length (filter (fun x => g (f x)) l).
Proof. induction l as [|x l IH]; simpl; auto. destruct (g (f x)); simpl; rewrite IH; reflexivity. Qed.
Theorem cut_spec ord ord2 block scopes nv ne eptr eind lf rf ctx : (forall m, Permutation (ord m) m) -> (forall l, Permutation (ord2 l) l) ->
  hypergraph ord scopes = (nv, ne, eptr, eind) -> PartitionGraph ord2 block scopes = (lf, rf, ctx) ->
  length ctx = length (filter (cut_edge block eptr eind) (seq 0 ne)).
Proof.
  intros O O2 E E2. destruct (hypergraph_spec _ _ _ _ _ _ O E) as (_ & vars & ND & IV & LV & _ & _ & _ & HK). destruct (context_spec _ _ _ _ _ _ O2 E2) as [NC IC].
  set (cut := fun v => existsb block (occs v (numbered scopes)) && existsb (fun i => negb (block i)) (occs v (numbered scopes))).
  assert (Permutation ctx (filter cut vars)) as PC.
  { apply NoDup_Permutation; auto; [apply NoDup_filter; auto|]. intros v. rewrite IC, filter_In. unfold cut. rewrite andb_true_iff, !existsb_exists. rewrite IV. split.
    - intros [(i & S & H1 & H2 & H3) (j & S' & H4 & H5 & H6)]. split; [exists S; split; auto; eapply nth_error_In; eauto|].
      split; [exists i|exists j; rewrite H6]; (split; [apply occs_in; eauto|auto]).
    - intros (_ & (i & H1 & H2) & (j & H3 & H4)). apply occs_in in H1 as (S & H1 & H5), H3 as (S' & H3 & H6). apply negb_true_iff in H4.
      split; [exists i, S|exists j, S']; auto. }
  rewrite (Permutation_length PC). subst ne.
  assert (vars = map (fun k => nth k vars 0%N) (seq 0 (length vars))) as EV.
  { apply (nth_ext _ _ 0%N 0%N); [rewrite map_length, seq_length; reflexivity|]. intros k L.
    set (f := fun k => nth k vars 0%N). rewrite (nth_indep (map f (seq 0 (length vars))) 0%N (f 0)) by (rewrite map_length, seq_length; exact L). rewrite (map_nth f), seq_nth by exact L. reflexivity. }
  rewrite EV at 1. rewrite filter_map_length. f_equal. apply filter_ext_in. intros k Hk. apply in_seq in Hk. simpl in Hk.
  destruct (nth_error vars k) as [v|] eqn:Ek; [|apply nth_error_None in Ek; lia]. rewrite (nth_error_nth _ _ _ Ek). destruct (HK k v Ek) as (a & b & A1 & A2 & _ & _ & A3).
  unfold cut, cut_edge, slice. rewrite A1, A2, A3. reflexivity.
Qed.

(** ** The file name *)
Theorem config_name_spec dir : cstring dir = dir ->
  config_name dir = if Nat.leb (length dir) 488 then Ok (dir ++ str "/config.ini") else UB.
Proof.
  intros C. unfold config_name, strcpy, strcat. rewrite C. unfold lenN. change (cstring (str "/config.ini")) with (str "/config.ini"). change (length (str "/config.ini")) with 11.
  destruct (Nat.leb_spec (length dir) 488) as [L|L].
  - assert ((N.of_nat (length dir) + 1 <=? 500)%N = true) as -> by (apply N.leb_le; lia). unfold bind.
    assert ((N.of_nat (length dir) + N.of_nat 11 + 1 <=? 500)%N = true) as -> by (apply N.leb_le; lia). reflexivity.
  - destruct (N.of_nat (length dir) + 1 <=? 500)%N; [|reflexivity]. unfold bind.
    assert ((N.of_nat (length dir) + N.of_nat 11 + 1 <=? 500)%N = false) as -> by (apply N.leb_gt; lia). reflexivity.
Qed.
