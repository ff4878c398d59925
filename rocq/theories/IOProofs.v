(** Writing a PSDD to a file and reading it back (C35). *)
From Coq Require Import Ascii String Reals Lra.
From Verif Require Import Base Param ParamProofs Vtree VtreeProofs Spec SpecProofs Heap Manager HeapProofs SerProofs RepProofs LoadProofs Text IO.

Lemma foldM_map {S A B} (f : S -> B -> res S) (g : A -> B) l : forall s, foldM f (map g l) s = foldM (fun s a => f s (g a)) l s.
Proof. induction l as [|a l IH]; intros s; simpl; auto. destruct (f s (g a)); simpl; auto. Qed.

Fixpoint index_of (i : nat) (l : list nat) : nat :=
  match l with [] => 0 | j :: l' => if Nat.eqb i j then 0 else S (index_of i l') end.
Lemma index_app i l r : ~ In i l -> index_of i (l ++ i :: r) = List.length l.
Proof.
  induction l as [|j l IH]; intros H; simpl; [rewrite Nat.eqb_refl; auto|].
  destruct (Nat.eqb i j) eqn:E; [apply Nat.eqb_eq in E; subst; exfalso; apply H; left; auto|].
  rewrite IH; auto. intros G; apply H; right; auto.
Qed.
Lemma index_lt i l : In i l -> index_of i l < List.length l.
Proof.
  induction l as [|j l IH]; intros H; [destruct H|]. simpl. destruct (Nat.eqb i j) eqn:E; [lia|].
  destruct H as [->|H]; [rewrite Nat.eqb_refl in E; discriminate|]. apply IH in H. lia.
Qed.
Lemma index_inj i j l : In i l -> In j l -> index_of i l = index_of j l -> i = j.
Proof.
  induction l as [|k l IH]; intros H1 H2 E; [destruct H1|]. simpl in E.
  destruct (Nat.eqb i k) eqn:E1, (Nat.eqb j k) eqn:E2; try discriminate.
  - apply Nat.eqb_eq in E1, E2. congruence.
  - apply IH; try congruence; [destruct H1 as [->|]|destruct H2 as [->|]]; auto; rewrite Nat.eqb_refl in *; discriminate.
Qed.

Lemma vsize_pos t : 0 < vsize t.
Proof. destruct t; simpl; lia. Qed.
Lemma pos_down_lt t : forall p, pos_down t p < vsize t.
Proof.
  induction t as [v|a IHa b IHb]; intros [|[] p]; simpl; pose proof (fun t => vsize_pos t) as V; try lia.
  - specialize (IHb p). lia.
  - specialize (IHa p). lia.
Qed.
Lemma vpos_lt t p : vpos t p < vsize t.
Proof. apply pos_down_lt. Qed.

(** ** Trees equal up to the order of the elements *)
Inductive shuffled : ptree -> ptree -> Prop :=
| sh_lit l : shuffled (TLit l) (TLit l)
| sh_top v a b : shuffled (TTop v a b) (TTop v a b)
| sh_dec es es1 es' : Forall2 (fun e e1 => shuffled (tp e) (tp e1) /\ shuffled (ts e) (ts e1) /\ tw e1 = tw e) es es1 ->
    Permutation es1 es' -> shuffled (TDec es) (TDec es').
Lemma shuffled_dec_inv es t' : shuffled (TDec es) t' -> exists es1 es', t' = TDec es' /\
  Forall2 (fun e e1 => shuffled (tp e) (tp e1) /\ shuffled (ts e) (ts e1) /\ tw e1 = tw e) es es1 /\ Permutation es1 es'.
Proof. intros H. inversion H; subst. eauto. Qed.
Lemma shuffled_like t : forall t', shuffled t t' -> like t t'.
Proof.
  induction t as [z|v a b|es IH] using ptree_ind2; intros t' H.
  - inversion H; subst. apply like_refl.
  - inversion H; subst. apply like_refl.
  - apply shuffled_dec_inv in H as (es1 & es' & -> & F & PM). eapply like_dec; [|exact PM]. clear PM.
    induction F as [|e e1 es es1 (A & B & C) F IHF]; [constructor|].
    inversion IH as [|? ? [I1 I2] I3]; subst. constructor; auto. split; [|split]; auto.
Qed.
Lemma shuffled_all (Q : ptree -> Prop) (HQ : forall es es1 es', Q (TDec es) ->
    Forall2 (fun e e1 => shuffled (tp e) (tp e1) /\ shuffled (ts e) (ts e1) /\ tw e1 = tw e) es es1 -> Permutation es1 es' -> Q (TDec es')) t :
  forall t', shuffled t t' -> all_nodes Q t -> all_nodes Q t'.
Proof.
  induction t as [z|v a b|es IH] using ptree_ind2; intros t' H N.
  - inversion H; subst. auto.
  - inversion H; subst. auto.
  - apply shuffled_dec_inv in H as (es1 & es' & -> & F & PM). apply all_nodes_dec in N as [N1 N2]. apply all_nodes_dec. split; [eauto|].
    eapply Permutation_Forall; [exact PM|]. clear PM N1.
    induction F as [|e e1 es es1 (A & B & C) F IHF]; [constructor|].
    inversion IH as [|? ? [I1 I2] I3]; inversion N2 as [|? ? [N3 N4] N5]; subst. constructor; auto.
Qed.
Lemma shuffled_normalized t t' : shuffled t t' -> normalized t -> normalized t'.
Proof.
  apply shuffled_all. intros es es1 es' H F PM. rewrite <- (rsum_perm _ _ _ PM), <- H. clear PM H.
  induction F as [|e e1 es es1 (A & B & C) F IH]; [reflexivity|]. simpl. rewrite IH, C. reflexivity.
Qed.

Section IO.
Context {P : pops} (val : P -> R) (HP : pexact P val).
Notation heap := (heap P). Notation mgr := (mgr P). Notation node := (node P).
Context (show : P -> text) (rd : text -> option P) (log0 : P) (rnd : P -> P).
Context (show_plain : forall a, Forall plain (show a)) (show_ne : forall a, show a <> []).

(** Parameters of a node *)
Definition params (nd : node) : list P :=
  match n_body nd with BLit _ => [] | BTop _ pt pf => [pt; pf] | BDec es => map e_param es end.
(** The integers in the file fit the types they are read into. *)
Record fits (sroot : vtree) (hs : heap) : Prop := {
  fit_heap : (Z.of_nat (List.length hs) <= 18446744073709551615)%Z;
  fit_vtree : (Z.of_nat (vsize sroot) <= 2147483647)%Z;
  fit_vars : forall v, In v (leaves sroot) -> (Z.of_N v <= 2147483647)%Z;
  fit_elems : forall i nd es, nth_error hs i = Some nd -> n_body nd = BDec es -> (Z.of_nat (List.length es) <= 18446744073709551615)%Z;
}.

Lemma sp_starts w : starts_blank (sp w).
Proof. reflexivity. Qed.
Lemma show_elems_starts ud (es : list (elem P)) : starts_blank (concat (map (show_elem show ud) es)).
Proof. destruct es; simpl; auto. Qed.
Lemma show_elem_ext ud ud' (e : elem P) : ud (e_prime e) = ud' (e_prime e) -> ud (e_sub e) = ud' (e_sub e) ->
  show_elem show ud e = show_elem show ud' e.
Proof. unfold show_elem. intros -> ->. reflexivity. Qed.
Lemma show_node_ext root ud ud' k (nd : node) : (forall c, In c (children nd) -> ud c = ud' c) ->
  show_node show root ud k nd = show_node show root ud' k nd.
Proof.
  intros H. unfold show_node. destruct (n_body nd) as [l|v pt pf|es] eqn:Eb; auto.
  assert (map (show_elem show ud) es = map (show_elem show ud') es) as ->; auto.
  apply map_ext_in. intros e He. apply show_elem_ext; apply H; unfold children; rewrite Eb; apply in_app_iff; [left|right]; apply in_map; auto.
Qed.
Definition nonl (s : text) : Prop := Forall (fun c => c <> nl) s.
Lemma nonl_app a b : nonl a -> nonl b -> nonl (a ++ b).
Proof. intros. apply Forall_app; auto. Qed.
Lemma plain_nonl s : Forall plain s -> nonl s.
Proof. apply Forall_impl. intros c H ->. discriminate. Qed.
Lemma nonl_no s : nonl s -> no_nl s.
Proof. intros F H. unfold nonl in F. rewrite Forall_forall in F. apply F in H. auto. Qed.
Lemma sp_nonl w : Forall plain w -> nonl (sp w).
Proof. intros H. constructor; [discriminate|apply plain_nonl; auto]. Qed.
Lemma show_node_nonl root ud k (nd : node) : nonl (show_node show root ud k nd).
Proof.
  assert (nonl (concat (map (show_elem show ud) match n_body nd with BDec es => es | _ => [] end))) as H.
  { induction (match n_body nd with BDec es => es | _ => [] end) as [|e es IH]; [constructor|]. cbn [map concat]. unfold show_elem at 1, nonl. rewrite !Forall_app.
    repeat split; try apply sp_nonl; auto; apply show_N_plain. }
  unfold show_node. destruct (n_body nd) as [l|v pt pf|es]; (constructor; [discriminate|]); unfold nonl in *; rewrite !Forall_app;
    repeat split; try apply sp_nonl; auto; try apply show_N_plain; apply show_Z_plain.
Qed.

(** ** Writing *)
Section Write.
Context (sroot : vtree) (hs : heap) (root : nat) (L : list nat) (SO : ser_of hs root L) (HO : heap_ok sroot hs) (HR : root < List.length hs).
Definition fid (i : nat) : N := N.of_nat (index_of i (rev L)).
Lemma fid_at L1 i L2 : L = L1 ++ i :: L2 -> fid i = N.of_nat (List.length L2).
Proof.
  intros E. unfold fid. rewrite E, rev_app_distr. simpl. rewrite <- app_assoc. simpl. rewrite index_app, rev_length; auto.
  rewrite <- in_rev. apply (NoDup_app_nin L1). rewrite <- E. apply (so_nodup _ _ _ SO).
Qed.
Lemma fid_inj i j : In i L -> In j L -> fid i = fid j -> i = j.
Proof. intros H1 H2 E. apply (index_inj i j (rev L)); try (rewrite <- in_rev; auto). unfold fid in E. lia. Qed.
Definition line (i : nat) : text :=
  match nth_error hs i with Some nd => show_node show sroot fid (fid i) nd | None => [] end.
Lemma write_spec ud : exists ud', WritePsddToFile show sroot hs ud root =
    Ok (unlines (header ++ [str "psdd" ++ sp (show_N (N.of_nat (List.length L)))] ++ map line (rev L)), ud') /\
  (forall i, reach hs root i -> ud' i = 0%N) /\ (forall i, ~ reach hs root i -> ud' i = ud i).
Proof.
  unfold WritePsddToFile. rewrite (so_eq _ _ _ SO). cbn [bind].
  destruct (bottom_up (write_step show sroot hs) (fun L2 st => fst (fst st) = N.of_nat (List.length L2) /\
      snd (fst st) = map line (rev L2) /\ (forall c, In c L2 -> snd st c = fid c) /\ (forall c, ~ In c L2 -> snd st c = ud c)) L (0%N, [], ud))
    as ([[k ls] ud1] & E1 & K1 & K2 & K3 & K4).
  { intros L1 i L2 [[k ls] ud0] EL (A & B & C & D). simpl in A, B, C, D.
    assert (reach hs root i) as RI by (apply (so_in _ _ _ SO); rewrite EL; apply in_elt).
    pose proof (NoDup_app_nin L1 L2 i ltac:(rewrite <- EL; apply (so_nodup _ _ _ SO))) as NI.
    destruct (nth_error hs i) as [nd|] eqn:E.
    2:{ exfalso. apply nth_error_None in E. pose proof (reach_le _ _ _ _ HO RI). assert (root < List.length hs); [|lia].
        exact HR. }
    unfold write_step. rewrite E. cbn [get bind]. eexists. split; [reflexivity|]. cbn [fst snd].
    split; [cbn [List.length]; lia|]. split; [|split].
    - cbn [rev]. rewrite map_app, <- B. f_equal. cbn [map]. unfold line. rewrite E. f_equal.
      rewrite (fid_at L1 i L2 EL), <- A. apply show_node_ext. intros c Hc. apply C. apply (so_topo _ _ _ SO L1 i L2 EL nd c E Hc).
    - intros c Hc. unfold set_uN. destruct (Nat.eqb_spec c i) as [->|NE]; [rewrite (fid_at L1 i L2 EL); auto|]. apply C. destruct Hc; congruence.
    - intros c Hc. unfold set_uN. destruct (Nat.eqb_spec c i) as [->|NE]; [exfalso; apply Hc; left; auto|]. apply D. intros G. apply Hc. right; auto. }
  { simpl. repeat split; auto. intros c []. }
  simpl in K1, K2, K3, K4. rewrite E1. cbn [bind snd]. eexists. split; [rewrite K2; reflexivity|].
  assert (forall l ud i, fold_left (fun ud i => set_uN ud i 0%N) l ud i = if memb i l then 0%N else ud i) as CU.
  { induction l as [|a l IH]; intros ud0 i; simpl; auto. rewrite IH. unfold set_uN. destruct (Nat.eqb i a); simpl; destruct (memb i l); auto. }
  split; intros i Hi; rewrite CU.
  - apply (so_in _ _ _ SO) in Hi. destruct (memb i L) eqn:EM; auto. apply memb_false in EM. contradiction.
  - assert (~ In i L) as Hi' by (intros G; apply Hi, (so_in _ _ _ SO); auto). destruct (memb i L) eqn:EM; auto.
    apply memb_In in EM. contradiction.
Qed.
End Write.

(** ** Reading *)
Context (T : N -> R -> R -> Prop) (Tfun : forall v a b b', T v a b -> T v a b' -> b = b').
Definition vr (a : P) : R := val (rnd a).
Definition tops_T : ptree -> Prop := all_nodes (fun t => match t with TTop v a b => T v a b | _ => True end).

Lemma reach_vt sroot (hs : heap) : heap_ok sroot hs -> forall i j, reach hs i j -> forall q, vt_of hs i = Some q ->
  exists u, vt_of hs j = Some (u ++ q).
Proof.
  intros HO i j R0. induction R0 as [i|i nd c j E Hc R0 IH]; intros q Hq; [exists []; auto|].
  apply in_children in Hc as (es & e & Eb & He & Hc).
  pose proof (HO _ _ E) as NO. unfold node_ok in NO. rewrite Eb in NO. destruct NO as (_ & _ & F).
  rewrite Forall_forall in F. destruct (F e He) as (_ & _ & V1 & V2).
  unfold vt_of in Hq. rewrite E in Hq. injection Hq as <-.
  destruct Hc as [->| ->]; [destruct (IH _ V1) as (u & Hu)|destruct (IH _ V2) as (u & Hu)];
    [exists (u ++ [false])|exists (u ++ [true])]; rewrite Hu, <- app_assoc; reflexivity.
Qed.

Section Read.
Context (sroot : vtree) (hs : heap) (root : nat) (L : list nat) (SO : ser_of hs root L) (HO : heap_ok sroot hs) (HR : root < List.length hs).
Context (q0 : path) (s : vtree) (t0 : ptree) (Hq0 : vt_of hs root = Some q0) (Hs : subtree sroot q0 = Some s)
  (Rt : Rep vr hs root t0) (TT : tops_T t0) (FT : fits sroot hs)
  (RD : forall i nd a, reach hs root i -> nth_error hs i = Some nd -> In a (params nd) -> rd (show a) = Some (rnd a)).
Context (fl : N) (pb : path).
Notation FD := (fid L).
Notation LN := (line sroot hs L).

Definition image (cache : list (Z * nat)) (m : mgr) (c : nat) : Prop :=
  exists j u t t', Zlookup (Z.of_N (FD c)) cache = Some j /\ vt_of hs c = Some (u ++ q0) /\
    Rep vr hs c t /\ node_at val m j (u ++ pb) t' /\ shuffled t t' /\ flag_of (m_heap m) j = Some fl /\ In j (m_live m).
Lemma image_ext cache (m m' : mgr) c : mext fl m m' -> image cache m c -> image cache m' c.
Proof.
  intros X (j & u & t & t' & H1 & H2 & H3 & H4 & H5 & H6 & H7). exists j, u, t, t'.
  do 3 (split; [auto|]). split; [exact (node_at_ext val fl m m' _ _ _ X H4)|]. split; [auto|].
  split; [|apply (me_live _ _ _ X); auto]. destruct X as [_ (l & -> & _) _ _]. unfold flag_of in *.
  destruct (nth_error (m_heap m) j) as [nd|] eqn:E'; [|discriminate]. rewrite nth_error_app1; [rewrite E'; auto|].
  apply nth_error_Some. congruence.
Qed.
Lemma image_cons k j cache (m : mgr) c : k <> Z.of_N (FD c) -> image cache m c -> image ((k, j) :: cache) m c.
Proof.
  intros NE (j' & u & t & t' & H1 & H). exists j', u, t, t'. split; auto. unfold Zlookup in *. simpl.
  destruct (Z.eqb_spec (Z.of_N (FD c)) k); congruence.
Qed.

Lemma ex_u64_N n rest : (Z.of_N n <= 18446744073709551615)%Z -> starts_blank rest -> ex_u64 (sp (show_N n) ++ rest, true) = (Some (Z.of_N n), (rest, true)).
Proof. intros. apply (ex_int_N 0); auto; try lia. apply starts_blank_nodig; auto. Qed.
Lemma ex_u32_N n rest : (Z.of_N n <= 4294967295)%Z -> starts_blank rest -> ex_u32 (sp (show_N n) ++ rest, true) = (Some (Z.of_N n), (rest, true)).
Proof. intros. apply (ex_int_N 0); auto; try lia. apply starts_blank_nodig; auto. Qed.
Lemma ex_i32_N n rest : (Z.of_N n <= 2147483647)%Z -> starts_blank rest -> ex_i32 (sp (show_N n) ++ rest, true) = (Some (Z.of_N n), (rest, true)).
Proof. intros. apply (ex_int_N (-2147483648)); auto; try lia. apply starts_blank_nodig; auto. Qed.
Lemma ex_i32_Z z rest : (-2147483648 <= z <= 2147483647)%Z -> starts_blank rest -> ex_i32 (sp (show_Z z) ++ rest, true) = (Some z, (rest, true)).
Proof. intros. apply (ex_int_Z (-2147483648)); auto; try lia. apply starts_blank_nodig; auto. Qed.
Lemma ex_param a rest : rd (show a) = Some (rnd a) -> starts_blank rest -> ex_word rd log0 (sp (show a) ++ rest, true) = (Some (rnd a), (rest, true)).
Proof. intros E H. unfold sp. cbn [app]. rewrite ex_word_app; auto. rewrite E. reflexivity. Qed.

Lemma L_len : List.length L <= List.length hs.
Proof.
  apply NoDup_range_length; [apply (so_nodup _ _ _ SO)|]. intros x Hx. apply (so_in _ _ _ SO) in Hx.
  pose proof (reach_le _ _ _ _ HO Hx). lia.
Qed.
Lemma fid_fits c : In c L -> (Z.of_N (FD c) <= 18446744073709551615)%Z.
Proof.
  intros H. unfold fid. pose proof L_len. pose proof (fit_heap _ _ FT). rewrite in_rev in H. apply index_lt in H. rewrite rev_length in H. lia.
Qed.

Lemma read_elems_spec cache (m : mgr) (es : list (elem P)) tes u : (forall e, In e es -> rd (show (e_param e)) = Some (rnd (e_param e))) ->
  (forall e, In e es -> In (e_prime e) L /\ In (e_sub e) L) ->
  (forall e, In e es -> image cache m (e_prime e) /\ image cache m (e_sub e)) ->
  (forall e, In e es -> vt_of hs (e_prime e) = Some (false :: u ++ q0) /\ vt_of hs (e_sub e) = Some (true :: u ++ q0)) ->
  Forall2 (ElemRep vr hs) es tes ->
  exists es1 tes1, read_elems rd log0 (List.length es) cache (concat (map (show_elem show FD) es), true) =
      Ok (map e_prime es1, map e_sub es1, map e_param es1) /\
    Forall (fun e => vt_of (m_heap m) (e_prime e) = Some (false :: u ++ pb) /\ vt_of (m_heap m) (e_sub e) = Some (true :: u ++ pb)) es1 /\
    Forall2 (ElemRep val (m_heap m)) es1 tes1 /\
    Forall2 (fun te te1 => shuffled (tp te) (tp te1) /\ shuffled (ts te) (ts te1) /\ tw te1 = tw te) tes tes1.
Proof.
  intros H1 H2 H3 H4 F. revert H1 H2 H3 H4. induction F as [|e te es tes (R1 & R2 & R3) F IH]; intros H1 H2 H3 H4.
  - exists [], []. repeat split; constructor.
  - destruct IH as (es1 & tes1 & E1 & F1 & F2 & F3).
    { intros; apply H1; right; auto. } { intros; apply H2; right; auto. } { intros; apply H3; right; auto. } { intros; apply H4; right; auto. }
    destruct (H2 e (or_introl eq_refl)) as [I1 I2]. destruct (H3 e (or_introl eq_refl)) as [(j1 & u1 & t1 & t1' & A1 & A2 & A3 & A4 & A5 & _) (j2 & u2 & t2 & t2' & B1 & B2 & B3 & B4 & B5 & _)].
    destruct (H4 e (or_introl eq_refl)) as [V1 V2].
    assert (u1 = false :: u) as ->. { rewrite V1 in A2. injection A2 as A2. change (false :: u ++ q0) with ((false :: u) ++ q0) in A2. apply app_inv_tail in A2. auto. }
    assert (u2 = true :: u) as ->. { rewrite V2 in B2. injection B2 as B2. change (true :: u ++ q0) with ((true :: u) ++ q0) in B2. apply app_inv_tail in B2. auto. }
    rewrite (Rep_fun vr _ _ _ _ A3 R1) in A5. rewrite (Rep_fun vr _ _ _ _ B3 R2) in B5.
    exists (MkE j1 j2 (rnd (e_param e)) :: es1), ((t1', t2', tw te) :: tes1).
    split; [|split; [|split]].
    + cbn [List.length map concat read_elems]. unfold show_elem at 1. rewrite <- !app_assoc.
      rewrite ex_u64_N; [|apply fid_fits; auto|reflexivity]. rewrite ex_u64_N; [|apply fid_fits; auto|reflexivity].
      rewrite ex_param; [|apply H1; left; auto|apply show_elems_starts]. cbn [get bind]. rewrite A1. cbn [bind]. rewrite B1. cbn [bind].
      match goal with |- context [read_elems rd log0 (List.length es) cache ?z] => replace (read_elems rd log0 (List.length es) cache z) with (Ok (map e_prime es1, map e_sub es1, map e_param es1)) by (symmetry; exact E1) end. cbn [bind]. reflexivity.
    + constructor; auto. split; [apply A4|apply B4].
    + constructor; auto. split; [apply A4|]. split; [apply B4|]. exact R3.
    + constructor; auto.
Qed.

Lemma sh_dec_perm tes tes1 tes2 : Forall2 (fun te te1 => shuffled (tp te) (tp te1) /\ shuffled (ts te) (ts te1) /\ tw te1 = tw te) tes tes1 ->
  Permutation tes1 tes2 -> shuffled (TDec tes) (TDec tes2).
Proof. intros. econstructor; eauto. Qed.

Lemma read_line_spec L1 i L2 cache ro psz (m : mgr) : L = L1 ++ i :: L2 -> subtree (m_vt m) pb = Some s ->
  InvT val T fl m -> (forall c, In c L2 -> image cache m c) ->
  exists j m', read_line rd log0 fl (cache, ro, Some psz, m) (LN i) = Ok ((Z.of_N (FD i), j) :: cache, Some j, Some psz, m') /\
    InvT val T fl m' /\ mext fl m m' /\ (forall c, In c (i :: L2) -> image ((Z.of_N (FD i), j) :: cache) m' c).
Proof.
  intros EL Sm I IM.
  assert (In i L) as HiL by (rewrite EL; apply in_elt).
  assert (reach hs root i) as RI by (apply (so_in _ _ _ SO); auto).
  destruct (reach_vt sroot hs HO _ _ RI _ Hq0) as (u & Hu).
  destruct (Rep_exists vr sroot hs HO i) as [t Rti]. { eapply vt_of_lt; eauto. }
  pose proof (reach_all_nodes vr _ _ _ _ _ _ RI Rt Rti TT) as TTi.
  pose proof (NoDup_app_nin L1 L2 i ltac:(rewrite <- EL; apply (so_nodup _ _ _ SO))) as NI.
  assert (subtree (m_vt m) (u ++ pb) = subtree sroot (u ++ q0)) as SU by (rewrite !subtree_app, Sm, Hs; reflexivity).
  assert (forall j (m' : mgr) t', mext fl m m' -> node_at val m' j (u ++ pb) t' -> shuffled t t' -> flag_of (m_heap m') j = Some fl -> In j (m_live m') ->
    forall c, In c (i :: L2) -> image ((Z.of_N (FD i), j) :: cache) m' c) as FIN.
  { intros j m' t' X A SH FL LV c Hc. destruct (Nat.eq_dec c i) as [->|NE].
    - exists j, u, t, t'. split; [|auto 10]. unfold Zlookup. simpl. rewrite Z.eqb_refl. reflexivity.
    - destruct Hc as [Hc|Hc]; [congruence|]. apply image_cons; [|apply (image_ext cache m m'); auto].
      intros Z0. apply NE. eapply (fid_inj hs root L); eauto; [rewrite EL; apply in_app_iff; right; right; auto|]. lia. }
  assert ((Z.of_N (N.of_nat (vpos sroot (u ++ q0))) <= 2147483647)%Z) as VP.
  { pose proof (vpos_lt sroot (u ++ q0)). pose proof (fit_vtree _ _ FT). lia. }
  pose proof (fid_fits i HiL) as FF.
  assert (forall v, subtree sroot (u ++ q0) = Some (Leaf v) -> (Z.of_N v <= 2147483647)%Z) as FV.
  { intros v Hv. apply (fit_vars _ _ FT). apply (HeapProofs.subtree_leaves _ _ _ _ Hv). left; auto. }
  inversion Rti as [? nd l E Eb|? nd v pt pf E Eb|? nd es tes E Eb F]; subst.
  all: assert (n_vt nd = u ++ q0) as VN by (unfold vt_of in Hu; rewrite E in Hu; injection Hu; auto).
  all: unfold line; rewrite E; unfold show_node; rewrite Eb, VN; unfold read_line.
  - pose proof (HO _ _ E) as NO. unfold node_ok in NO. rewrite Eb, VN in NO.
    cbn [head_char Ascii.eqb Bool.eqb]. cbv iota. cbn [substr skipn List.length Nat.ltb Nat.leb bind].
    rewrite ex_u64_N by (auto || reflexivity). rewrite ex_u32_N by (lia || reflexivity).
    pose proof (FV _ NO) as B. unfold lit_var in B.
    replace (sp (show_Z l)) with (sp (show_Z l) ++ []) by apply app_nil_r. rewrite ex_i32_Z by (lia || exact Logic.I).
    cbn [get bind]. rewrite <- SU in NO.
    destruct (literalT_spec val HP T Tfun fl m l (u ++ pb) I NO) as (j & m' & E1 & I' & X & LV & A & FL).
    rewrite E1. cbn [bind]. exists j, m'. split; [reflexivity|]. do 2 (split; [auto|]). apply (FIN j m' (TLit l)); auto. constructor.
  - pose proof (HO _ _ E) as NO. unfold node_ok in NO. rewrite Eb, VN in NO.
    cbn [head_char Ascii.eqb Bool.eqb]. cbv iota. cbn [substr skipn List.length Nat.ltb Nat.leb bind].
    rewrite ex_u64_N by (auto || reflexivity). rewrite ex_u32_N by (lia || reflexivity).
    pose proof (FV _ NO) as B. rewrite ex_u32_N by (lia || reflexivity).
    rewrite ex_param; [|apply (RD i nd pf RI E); unfold params; rewrite Eb; simpl; auto|reflexivity].
    replace (sp (show pt)) with (sp (show pt) ++ []) by apply app_nil_r.
    rewrite ex_param; [|apply (RD i nd pt RI E); unfold params; rewrite Eb; simpl; auto|exact Logic.I].
    cbn [get bind]. rewrite N2Z.id. rewrite <- SU in NO.
    destruct (topT_spec val HP T Tfun fl m v (rnd pt) (rnd pf) (u ++ pb) I NO (all_nodes_root _ _ TTi)) as (j & m' & E1 & I' & X & LV & A & FL).
    rewrite E1. cbn [bind]. exists j, m'. split; [reflexivity|]. do 2 (split; [auto|]).
    apply (FIN j m' (TTop v (vr pt) (vr pf))); auto. constructor.
  - pose proof (HO _ _ E) as NO. unfold node_ok in NO. rewrite Eb, VN in NO. destruct NO as (NE & (l & r & HV) & FE).
    cbn [head_char Ascii.eqb Bool.eqb]. cbv iota. cbn [substr skipn List.length Nat.ltb Nat.leb bind assert].
    rewrite ex_u64_N by (auto || reflexivity). rewrite ex_i32_N by (lia || reflexivity).
    pose proof (fit_elems _ _ FT _ _ _ E Eb) as FE2.
    rewrite ex_u64_N; [|lia|apply show_elems_starts]. cbn [get bind].
    replace (Z.to_nat (Z.of_N (N.of_nat (List.length es)))) with (List.length es) by lia.
    assert (forall e, In e es -> In (e_prime e) (children nd) /\ In (e_sub e) (children nd)) as CH.
    { intros e He. unfold children. rewrite Eb. rewrite !in_app_iff. split; [left|right]; apply in_map; auto. }
    assert (forall c, In c (children nd) -> In c L2) as CL.
    { intros c Hc. apply (so_topo _ _ _ SO L1 i L2 EL nd c E Hc). }
    assert (forall c, In c L2 -> In c L) as L2L by (intros c Hc; rewrite EL; apply in_app_iff; right; right; auto).
    destruct (read_elems_spec cache m es tes u) as (es1 & tes1 & E1 & F1 & F2 & F3); auto.
    { intros e He. apply (RD i nd); auto. unfold params. rewrite Eb. apply in_map; auto. }
    { intros e He. destruct (CH e He). auto. }
    { intros e He. destruct (CH e He). auto. }
    { intros e He. rewrite Forall_forall in FE. destruct (FE e He) as (_ & _ & V1 & V2). auto. }
    match goal with |- context [read_elems rd log0 (List.length es) cache ?z] => replace (read_elems rd log0 (List.length es) cache z) with (Ok (map e_prime es1, map e_sub es1, map e_param es1)) by (symmetry; exact E1) end. cbn [bind].
    assert (es1 <> []) as NE1.
    { intros ->. inversion F2; subst. inversion F3; subst. inversion F; subst. congruence. }
    assert (exists e1 es2, es1 = e1 :: es2) as (e1 & es2 & EE) by (destruct es1; [congruence|eauto]).
    assert (vt_of (m_heap m) (e_prime e1) = Some (false :: u ++ pb) /\ vt_of (m_heap m) (e_sub e1) = Some (true :: u ++ pb)) as [W1 W2].
    { rewrite EE in F1. inversion F1; auto. }
    assert (hd_error (map e_prime es1) = Some (e_prime e1) /\ hd_error (map e_sub es1) = Some (e_sub e1)) as [H1 H2] by (rewrite EE; auto).
    rewrite H1. cbn [get bind]. rewrite H2. cbn [get bind]. rewrite W1. cbn [get bind]. rewrite W2. cbn [get bind vparent oeqb assert].
    rewrite path_eqb_refl. cbn [assert bind get].
    rewrite <- SU in HV.
    destruct (new_decT_spec val HP T Tfun fl m (u ++ pb) es1 tes1 I (ex_intro _ l (ex_intro _ r HV)) NE1 F1 F2) as (j & m' & tes2 & E2 & I' & X & LV & PM & A & FL).
    rewrite E2. cbn [bind]. exists j, m'. split; [reflexivity|]. do 2 (split; [auto|]).
    apply (FIN j m' (TDec tes2)); auto. eapply sh_dec_perm; eauto.
Qed.

Lemma header_read m : foldM (read_line rd log0 fl) header ([], None, None, m) = Ok ([], None, None, m).
Proof. reflexivity. Qed.
Lemma header_nonl : Forall no_nl header.
Proof. unfold header. repeat (apply Forall_cons; [apply nonl_no; repeat (apply Forall_cons; [discriminate|]); apply Forall_nil|]). apply Forall_nil. Qed.

Lemma read_spec (m : mgr) : subtree (m_vt m) pb = Some s -> InvT val T fl m ->
  exists j m' t', ReadPsddFile rd log0 (unlines (header ++ [str "psdd" ++ sp (show_N (N.of_nat (List.length L)))] ++ map LN (rev L))) fl m = Ok (Some j, m') /\
    InvT val T fl m' /\ mext fl m m' /\ node_at val m' j pb t' /\ shuffled t0 t' /\ flag_of (m_heap m') j = Some fl /\ In j (m_live m').
Proof.
  intros Sm I. unfold ReadPsddFile. rewrite lines_unlines.
  2:{ apply Forall_app. split; [apply header_nonl|]. apply Forall_app. split.
      - constructor; [|constructor]. apply nonl_no. apply nonl_app; [repeat constructor; discriminate|]. apply sp_nonl, show_N_plain.
      - apply Forall_forall. intros x Hx. apply in_map_iff in Hx as (i & <- & _). apply nonl_no. unfold line.
        destruct (nth_error hs i); [apply show_node_nonl|constructor]. }
  rewrite foldM_app, header_read. cbn [bind]. rewrite foldM_app.
  assert (exists z, foldM (read_line rd log0 fl) [str "psdd" ++ sp (show_N (N.of_nat (List.length L)))] ([], None, None, m) = Ok ([], None, Some z, m)) as [z Ez].
  { cbn [foldM]. unfold read_line. cbn [head_char str list_ascii_of_string app Ascii.eqb Bool.eqb]. cbv iota.
    unfold substr. cbn [List.length Nat.ltb Nat.leb skipn sp bind].
    destruct (show_N_head (N.of_nat (List.length L))) as (c & w & E & PL & E1 & E2).
    unfold ex_u32, ex_int. cbn [negb]. rewrite E, skip_ws_plain by auto. rewrite E1, E2. cbv iota beta. rewrite <- E.
    pose proof (take_digits_app (N.to_uint (N.of_nat (List.length L))) [] Logic.I) as TD. rewrite app_nil_r in TD. unfold show_N. rewrite TD.
    rewrite is_nil_to_uint. cbv zeta. cbn [Z.eqb]. destruct (_ <? _)%Z; eexists; reflexivity. }
  rewrite Ez. cbn [bind]. rewrite foldM_map.
  destruct (bottom_up (fun st i => read_line rd log0 fl st (LN i)) (fun L2 st =>
      exists cache ro m1, st = (cache, ro, Some z, m1) /\ InvT val T fl m1 /\ mext fl m m1 /\ (forall c, In c L2 -> image cache m1 c) /\
        (forall i l, L2 = i :: l -> exists j, ro = Some j /\ Zlookup (Z.of_N (FD i)) cache = Some j)) L ([], None, Some z, m))
    as (st & E1 & cache & ro & m1 & -> & I1 & X1 & IM1 & RO).
  { intros L1 i L2 st EL (cache & ro & m1 & -> & I1 & X1 & IM1 & _).
    destruct (read_line_spec L1 i L2 cache ro z m1 EL) as (j & m2 & E2 & I2 & X2 & IM2); auto. { rewrite (me_vt _ _ _ X1). auto. }
    eexists. split; [exact E2|]. eexists _, _, m2. split; [reflexivity|]. split; [auto|]. split; [eapply mext_trans; eauto|]. split; [auto|].
    intros i' l H. injection H as <- <-. exists j. split; auto. unfold Zlookup. simpl. rewrite Z.eqb_refl. reflexivity. }
  { exists [], None, m. split; [reflexivity|]. split; [auto|]. split; [apply mext_refl|]. split; [intros c []|discriminate]. }
  rewrite E1. cbn [bind fst snd]. destruct (so_head _ _ _ SO) as [l El]. destruct (RO root l El) as (j & -> & EJ).
  assert (In root L) as HRL by (rewrite El; left; auto).
  destruct (IM1 root HRL) as (j' & u & t & t' & H1 & H2 & H3 & H4 & H5 & H6 & H7).
  assert (j' = j) as -> by congruence. assert (u = []) as ->.
  { rewrite Hq0 in H2. injection H2 as H2. apply (f_equal (@List.length bool)) in H2. rewrite app_length in H2. destruct u; auto; simpl in H2; lia. }
  rewrite (Rep_fun vr _ _ _ _ H3 Rt) in H5. exists j, m1, t'. split; [reflexivity|]. auto 10.
Qed.
End Read.

Theorem write_read sroot (hs : heap) ud root q0 s t (m : mgr) fl pb :
  heap_ok sroot hs -> vt_of hs root = Some q0 -> subtree sroot q0 = Some s -> fits sroot hs ->
  (forall i nd a, reach hs root i -> nth_error hs i = Some nd -> In a (params nd) -> rd (show a) = Some (rnd a)) ->
  Rep vr hs root t -> tops_T t ->
  subtree (m_vt m) pb = Some s -> InvT val T fl m ->
  exists content ud' j m' t',
    WritePsddToFile show sroot hs ud root = Ok (content, ud') /\
    (forall i, reach hs root i -> ud' i = 0%N) /\ (forall i, ~ reach hs root i -> ud' i = ud i) /\
    ReadPsddFile rd log0 content fl m = Ok (Some j, m') /\
    InvT val T fl m' /\ mext fl m m' /\ node_at val m' j pb t' /\ shuffled t t' /\ flag_of (m_heap m') j = Some fl /\ In j (m_live m').
Proof.
  intros HO Hq0 Hs FT RD Rt TT Sm I. assert (root < List.length hs) as HR by (eapply vt_of_lt; eauto).
  destruct (serialize_root hs sroot root HO HR) as [L SO].
  destruct (write_spec sroot hs root L SO HO HR ud) as (ud' & E1 & U1 & U2).
  destruct (read_spec sroot hs root L SO HO HR q0 s t Hq0 Hs Rt TT FT RD fl pb m Sm I) as (j & m' & t' & E2 & H).
  eexists _, ud', j, m', t'. split; [exact E1|]. split; [auto|]. split; [auto|]. split; [exact E2|]. exact H.
Qed.
End IO.
