(** Repeating a whole construction (C51): reading a file, converting an SDD, compiling a CNF or a network, learning and sampling
    parameters return the same nodes again and create nothing, as long as nothing was collected. *)
From Coq Require Import Ascii.
From Verif Require Import Base Param ParamProofs Vtree VtreeProofs Heap Manager HeapProofs SerProofs OrderProofs CanonProofs ReplayProofs Query Learn Sdd
  Text IO Cnf Pgm.

Ltac gt := match goal with |- grow _ _ => first [assumption | eapply grow_trans; [eassumption|]; gt] | _ => auto end.
(** rewrites with everything that is known to succeed *)
Ltac rw := repeat match goal with E : ?e = Ok _ |- context [bind ?e _] => rewrite E; cbn [bind fst snd] end.
Tactic Notation "bg" hyp(H) "as" simple_intropattern(p) ident(E) := bk H as p E; try rewrite E; cbn [bind fst snd].
Ltac use B m := let K := fresh "K" in assert (K := B m); cbv beta in K; rewrite K by gt; clear K; cbn [bind fst snd].

Local Open Scope char_scope.
Section Again.
Context {P : pops} (pg : P -> Prop) (HO : pord P pg) (Hr : forall a : P, peq a a = true) (Hi : forall a : P, plt a a = false) (pg_all : forall a, pg a).
Notation heap := (heap P). Notation mgr := (mgr P). Notation node := (node P). Notation replays := (replays pg).

Lemma again_foldM {S A} (step : S * mgr -> A -> res (S * mgr)) : (forall s a, replays (fun m => step (s, m) a)) ->
  forall l s, replays (fun m => foldM step l (s, m)).
Proof.
  intros R l. induction l as [|a l IH]; intros s m y m1 H; cbn [foldM] in H |- *.
  - injection H as <- <-. split; [apply grow_refl|auto].
  - bg H as [s' m'] E. destruct (R _ _ _ _ _ E) as [G1 B1]. destruct (IH _ _ _ _ H) as [G2 B2].
    split; [eapply grow_trans; eauto|]. intros m2 W L G. rw; use B1 m2; rw. cbn [bind]. auto.
Qed.
Lemma again_lit l fl : replays (fun m => GetPsddLiteralNode m l fl).
Proof. apply replays_literal; auto. Qed.
Lemma again_top v fl a b : replays (fun m => GetPsddTopNode m v fl a b).
Proof. apply replays_top; auto. Qed.
Lemma again_conf ps ss ws fl : replays (fun m => GetConformedPsddDecisionNode m ps ss ws fl).
Proof. apply replays_Conformed; auto. apply Forall_forall; auto. Qed.
Lemma again_dec p fl ps ss ws : replays (fun m => new_dec m p fl ps ss ws).
Proof. apply prog_replays, prog_new_dec; auto. apply Forall_forall; auto. Qed.
Lemma again_norm target fl cur tm : replays (normalize_with (get_true gt_fuel) target fl cur tm).
Proof. apply prog_replays, prog_normalize_with, prog_get_true; auto. Qed.
Lemma again_true p fl tm : replays (get_true gt_fuel p fl tm).
Proof. apply prog_replays, prog_get_true; auto. Qed.
Lemma again_unique nd : replays (fun m => Ok (GetUniqueNode m nd)).
Proof. apply replays_unique; auto. unfold node_good. destruct (n_body nd); auto. apply Forall_forall; auto. Qed.

(** ** Sampling and learning *)
Lemma again_relab (hs : heap) fl ud i ws : replays (fun m => relab_step hs fl (ud, m) i ws).
Proof.
  intros m y m1 H. unfold relab_step in H |- *. bg H as nd E. destruct (n_body nd) as [l|v a0 b0|es].
  - bg H as [j m'] E1. injection H as <- <-. destruct (again_lit _ _ _ _ _ E1) as [G B]. split; auto. intros m2 W L G2. rw; use B m2; rw; auto.
  - destruct ws as [|a [|b [|]]]; try discriminate. bg H as [j m'] E1. injection H as <- <-. destruct (again_top _ _ _ _ _ _ _ E1) as [G B]. split; auto.
    intros m2 W L G2. rw; use B m2; rw; auto.
  - bg H as ps E1. bg H as ss E2. bg H as [j m'] E3. injection H as <- <-. destruct (again_conf _ _ _ _ _ _ _ E3) as [G B]. split; auto.
    intros m2 W L G2. rw. rw; use B m2; rw; auto.
Qed.
Theorem again_learn (hs : heap) ud dc root ex n alpha fl : replays (LearnPsddParameters hs ud dc root ex n alpha fl).
Proof.
  intros m y m1 H. unfold LearnPsddParameters in H |- *. bg H as ser E. bg H as dc1 E1. bg H as [ud1 m'] E2. bg H as r E3. injection H as <- <-.
  destruct (again_foldM (learn_step hs dc1 alpha fl)) with (l := rev ser) (s := ud) (m := m) (x := ud1) (m1 := m') as [G B]; auto.
  - intros s a. unfold learn_step. intros m0 y m2 H. bg H as nd E0. bg H as ws E4. destruct (again_relab _ _ _ _ _ _ _ _ H) as [G B]. split; auto.

  - split; auto. intros m2 W L G2. rw. rw; use B m2; rw; auto.
Qed.
Theorem again_sample (G0 : dops P) near1 (hs : heap) ud root fl s : replays (SampleParameters G0 near1 hs ud root fl s).
Proof.
  intros m y m1 H. unfold SampleParameters, SampleParametersForMultiplePsdds in H |- *. bg H as [x m'] E. bg E as ser E0. bk E as [s1 [ud1 m0]] E1. bg E as rs E2.
  injection E as <- <-. bg H as r E3. injection H as <- <-.
  assert (forall l s ud m s1 ud1 m1, foldM (sample_step G0 near1 hs fl) l (s, (ud, m)) = Ok (s1, (ud1, m1)) -> 
    grow m m1 /\ forall m2, Wf m2 -> live_good pg m2 -> grow m1 m2 -> foldM (sample_step G0 near1 hs fl) l (s, (ud, m2)) = Ok (s1, (ud1, m2))) as F.
  { induction l as [|a l IH]; intros s2 u2 n2 s3 u3 n3 H; cbn [foldM] in H |- *.
    - injection H as <- <- <-. split; [apply grow_refl|auto].
    - bk H as [s' [u' n']] E. destruct (IH _ _ _ _ _ _ H) as [G2 B2]. unfold sample_step in E |- *. bg E as nd E4. bg E as [ws s4] E5. cbn [fst snd] in *. bg E as um E6. injection E as <- ->.
      destruct (again_relab _ _ _ _ _ _ _ _ E6) as [G1 B1]. split; [eapply grow_trans; eauto|]. intros m2 W L G. rw. rw; use B1 m2; rw.
      cbn [bind]. auto. }
  destruct (F _ _ _ _ _ _ _ E1) as [G B]. split; auto. intros m2 W L G2. cbn [bind fst snd] in *. rw; use B m2; rw; auto.
Qed.

(** ** SDDs and CNFs *)
Lemma again_elem sd nm vt fl ps ss tm e : replays (fun m => from_elem sd nm vt fl (ps, ss, tm, m) e).
Proof.
  intros m y m1 H. unfold from_elem in H |- *. destruct (nlookup (fst e) nm) as [pp|]; [|discriminate]. bg H as sn E.
  assert (forall m2, grow m m2 -> m_vt m2 = m_vt m) as V by (intros m2 G2; apply G2).
  destruct (s_body sn).
  - bk H as [[p1 tm1] n1] E1. bg H as rt E2. bk H as [[s1 tm2] n2] E3. injection H as <- <-.
    destruct (again_norm _ _ _ _ _ _ _ E1) as [G1 B1]. destruct (again_true _ _ _ _ _ _ E3) as [G2 B2].
    split; [eapply grow_trans; eauto|]. intros m2 W L G. cbn [bind]. rewrite V by (eapply grow_trans; [exact G1|eapply grow_trans; eauto]).
    rw; use B1 m2; rw. rw. rw; use B2 m2; rw; auto.
  - injection H as <- <-. split; [apply grow_refl|auto].
  - destruct (nlookup (snd e) nm) as [sp|]; [|discriminate]. bk H as [[p1 tm1] n1] E1. bk H as [[s1 tm2] n2] E3. injection H as <- <-.
    destruct (again_norm _ _ _ _ _ _ _ E1) as [G1 B1]. destruct (again_norm _ _ _ _ _ _ _ E3) as [G2 B2].
    split; [eapply grow_trans; eauto|]. intros m2 W L G. cbn [bind]. rewrite V by (eapply grow_trans; [exact G1|eapply grow_trans; eauto]).
    rw; use B1 m2; rw. rw; use B2 m2; rw; auto.
  - destruct (nlookup (snd e) nm) as [sp|]; [|discriminate]. bk H as [[p1 tm1] n1] E1. bk H as [[s1 tm2] n2] E3. injection H as <- <-.
    destruct (again_norm _ _ _ _ _ _ _ E1) as [G1 B1]. destruct (again_norm _ _ _ _ _ _ _ E3) as [G2 B2].
    split; [eapply grow_trans; eauto|]. intros m2 W L G. cbn [bind]. rewrite V by (eapply grow_trans; [exact G1|eapply grow_trans; eauto]).
    rw; use B1 m2; rw. rw; use B2 m2; rw; auto.
Qed.
Lemma again_step sd d fl nm tm n : replays (fun m => from_step sd d fl (nm, tm, m) n).
Proof.
  intros m y m1 H. unfold from_step in H |- *. bg H as sn E.
  assert (forall m2, grow m m2 -> m_vt m2 = m_vt m) as V by (intros m2 G2; apply G2).
  destruct (s_body sn) as [| |l|es].
  - injection H as <- <-. split; [apply grow_refl|auto].
  - injection H as <- <-. split; [apply grow_refl|auto].
  - bg H as vt E1. destruct (subtree (m_vt m) vt) as [[v|]|] eqn:S; try discriminate.
    destruct (GetUniqueNode m _) as [i n1] eqn:U in H. injection H as <- <-.
    destruct (again_unique _ m i n1 (f_equal Ok U)) as [G1 B1]. split; auto. intros m2 W L G. cbn [bind]. rewrite V by (eapply grow_trans; eauto). rewrite S.
    specialize (B1 m2 W L G). injection B1 as ->. reflexivity.
  - bg H as vt E1. bk H as [[[ps ss] tm1] n1] E2. bg H as u E3. bg H as [i n2] E4. injection H as <- <-.
    destruct (again_foldM (from_elem sd nm vt fl)) with (l := es) (s := ([] : list nat, [] : list nat, tm)) (m := m) (x := (ps, ss, tm1)) (m1 := n1) as [G1 B1]; auto.
    { intros [[ps0 ss0] tm0] a. apply again_elem. }
    destruct (again_dec _ _ _ _ _ _ _ _ E4) as [G2 B2]. split; [eapply grow_trans; eauto|]. intros m2 W L G. cbn [bind].
    rw; use B1 m2; rw. rw. rw; use B2 m2; rw; auto.
Qed.
Theorem again_sdd sd order root svt fl target d : replays (FromSdd sd order root svt fl target d).
Proof.
  intros m y m1 H. unfold FromSdd in H |- *. bg H as sn E.
  assert (forall m2, grow m m2 -> m_vt m2 = m_vt m) as V by (intros m2 G2; apply G2).
  assert ((do tp <- get target ;;
      do pt <- get (subtree (m_vt m) tp) ;;
      do pser <- SerializeVtree tp pt ;;
      do sser <- SerializeVtree [] svt ;;
      do d1 <- Tag d sser pser ;;
      do (x, m1) <- foldM (from_step sd d1 fl) order ([], [], m) ;;
      let '(nm, tm) := x in
      match nlookup root nm with
      | None => Abort
      | Some i =>
          do (y, m2) <- normalize_with (get_true gt_fuel) (Some tp) fl i tm m1 ;;
          Ok (Some (fst y), fold_left (fun d x => set_pdata d (fst x) None) sser d1, m2)
      end) = Ok (y, m1) -> grow m m1 /\ forall m2, Wf m2 -> live_good pg m2 -> grow m1 m2 -> (do tp <- get target ;;
      do pt <- get (subtree (m_vt m2) tp) ;;
      do pser <- SerializeVtree tp pt ;;
      do sser <- SerializeVtree [] svt ;;
      do d1 <- Tag d sser pser ;;
      do (x, m1) <- foldM (from_step sd d1 fl) order ([], [], m2) ;;
      let '(nm, tm) := x in
      match nlookup root nm with
      | None => Abort
      | Some i =>
          do (y, m2) <- normalize_with (get_true gt_fuel) (Some tp) fl i tm m1 ;;
          Ok (Some (fst y), fold_left (fun d x => set_pdata d (fst x) None) sser d1, m2)
      end) = Ok (y, m2)) as K.
  { clear H. intros H. bg H as tp E0. bg H as pt E1. bg H as pser E2. bg H as sser E3. bg H as d1 E4. bk H as [[nm tm] n1] E5.
    destruct (nlookup root nm) as [i|] eqn:EN; [|discriminate]. bg H as [yy n2] E6. injection H as <- <-.
    destruct (again_foldM (from_step sd d1 fl)) with (l := order) (s := ([] : nmap, [] : tmap)) (m := m) (x := (nm, tm)) (m1 := n1) as [G1 B1]; auto.
    { intros [nm0 tm0] a. apply again_step. }
    destruct (again_norm _ _ _ _ _ _ _ E6) as [G2 B2]. split; [eapply grow_trans; eauto|]. intros m2 W L G. cbn [bind].
    rewrite V by (eapply grow_trans; [exact G1|eapply grow_trans; eauto]). rw. cbv [nmap tmap] in *.
    use B1 m2; rw. rewrite EN. rw; use B2 m2; rw; auto. }
  destruct (s_body sn); try (apply K; exact H).
  - bg H as tp E1. bg H as [i n1] E2. injection H as <- <-.
    destruct (replays_GetTrueNode pg HO Hr Hi (pg_all _) (pg_all _) _ _ _ _ _ E2) as [G B]. split; auto. intros m2 W L G2. rw; use B m2; rw; auto.
  - injection H as <- <-. split; [apply grow_refl|auto].
Qed.
Theorem again_cnf libs cs fl : replays (Compile libs cs fl).
Proof.
  intros m y m1 H. unfold Compile in H |- *. bg H as vs E. bg H as [svt d0] E1. bg H as [r s] E2. bg H as [x n1] E3. injection H as <- <-.
  destruct (again_sdd _ _ _ _ _ _ _ _ _ _ E3) as [G B]. split; auto. intros m2 W L G2.
  assert (m_vt m2 = m_vt m) as -> by (eapply (grow_trans m n1 m2); eauto). rw. rw. rw. cbn [bind].
  unfold ConvertSddToPsdd. rw; use B m2; rw; auto.
Qed.

(** ** Files *)
Lemma again_line rd log0 fl cache root psz line : replays (fun m => read_line rd log0 fl (cache, root, psz, m) line).
Proof.
  intros m y m1 H. unfold read_line in H |- *. destruct (Ascii.eqb (head_char line) "c"); [injection H as <- <-; split; [apply grow_refl|auto]|].
  destruct (Ascii.eqb (head_char line) "p"); [bg H as s E; injection H as <- <-; split; [apply grow_refl|auto]|].
  bk H as [[k i] n1] E. bg H as z E0. injection H as <- <-.
  match type of E with ?f = _ => let f1 := eval pattern m in f in match f1 with ?g m =>
    assert (grow m n1 /\ forall m2, Wf m2 -> live_good pg m2 -> grow n1 m2 -> g m2 = Ok (k, i, m2)) as [G B] end end.
  2:{ split; auto. intros m2 W L G2. pose proof (B m2 W L G2) as K. cbv beta in K. rewrite K. cbn [bind]. reflexivity. }
  cbv beta. destruct (Ascii.eqb (head_char line) "L"); [|destruct (Ascii.eqb (head_char line) "T")].
  - bg E as s E1. destruct (ex_u64 (s, true)) as [k0 s1], (ex_u32 s1) as [u0 s2], (ex_i32 s2) as [l s3]. bg E as l' E2. bk E as [i0 n2] E3. bg E as k' E4. injection E as <- <- <-.
    destruct (again_lit _ _ _ _ _ E3) as [G B]. split; auto. intros m2 W L G2. rw; use B m2; rw; auto.
  - bg E as s E1. destruct (ex_u64 (s, true)) as [k0 s1], (ex_u32 s1) as [u0 s2], (ex_u32 s2) as [v s3], (ex_word rd log0 s3) as [neg s4], (ex_word rd log0 s4) as [pos s5].
    bg E as v' E2. bg E as pos' E5. bg E as neg' E6. bk E as [i0 n2] E3. bg E as k' E4. injection E as <- <- <-.
    destruct (again_top _ _ _ _ _ _ _ E3) as [G B]. split; auto. intros m2 W L G2. rw; use B m2; rw; auto.
  - bg E as u0 E1. bg E as s E2. destruct (ex_u64 (s, true)) as [k0 s1], (ex_i32 s1) as [u1 s2], (ex_u64 s2) as [n s3]. bg E as n' E3. bg E as [[ps ss] ws] E4.
    bg E as p0 E5. bg E as s0 E6. bk E as vp E7. bk E as vs E8. bg E as u2 E9. bg E as next E10. bk E as [i0 n2] E11. bg E as k' E12. injection E as <- <- <-.
    destruct (again_dec _ _ _ _ _ _ _ _ E11) as [G B]. split; auto. intros m2 W L G2.
    rewrite (stable_vt_of p0 m m2 vp (grow_trans _ _ _ G G2) E7). cbn [bind]. rewrite (stable_vt_of s0 m m2 vs (grow_trans _ _ _ G G2) E8). cbn [bind]. rw. use B m2; rw; auto.
Qed.
Theorem again_file rd log0 content fl : replays (ReadPsddFile rd log0 content fl).
Proof.
  intros m y m1 H. unfold ReadPsddFile in H |- *. bk H as [x n1] E. injection H as <- <-.
  destruct (again_foldM (read_line rd log0 fl)) with (l := lines content) (s := ([] : list (Z * nat), None : option nat, None : option Z)) (m := m) (x := x) (m1 := n1) as [G B]; auto.
  - intros [[c r] z] a. apply again_line.
  - split; auto. intros m2 W L G2. cbv [rstate] in *. use B m2. auto.
Qed.

(** ** Networks *)
Lemma again_term_node v pos neg : replays (term_node v pos neg).
Proof.
  intros m y m1 H. unfold term_node in H |- *. destruct (peq (padd pos neg) pzero); [injection H as <- <-; split; [apply grow_refl|auto]|].
  destruct (peq pos pzero); [|destruct (peq neg pzero)]; bk H as [i n1] E; injection H as <- <-.
  - destruct (again_lit _ _ _ _ _ E) as [G B]. split; auto. intros m2 W L G2. use B m2. auto.
  - destruct (again_lit _ _ _ _ _ E) as [G B]. split; auto. intros m2 W L G2. use B m2. auto.
  - destruct (again_top _ _ _ _ _ _ _ E) as [G B]. split; auto. intros m2 W L G2. use B m2. auto.
Qed.
Lemma again_cond_node v pos neg sp sn : replays (cond_node v pos neg sp sn).
Proof.
  intros m y m1 H. unfold cond_node in H |- *. destruct (peq (padd pos neg) pzero); [injection H as <- <-; split; [apply grow_refl|auto]|].
  destruct (peq pos pzero); [|destruct (peq neg pzero)].
  - bk H as [ln n1] E. bg H as s E1. bk H as [i n2] E2. injection H as <- <-.
    destruct (again_lit _ _ _ _ _ E) as [G1 B1]. destruct (again_conf _ _ _ _ _ _ _ E2) as [G2 B2].
    split; [gt|]. intros m2 W L G. use B1 m2. use B2 m2. auto.
  - bk H as [ln n1] E. bg H as s E1. bk H as [i n2] E2. injection H as <- <-.
    destruct (again_lit _ _ _ _ _ E) as [G1 B1]. destruct (again_conf _ _ _ _ _ _ _ E2) as [G2 B2].
    split; [gt|]. intros m2 W L G. use B1 m2. use B2 m2. auto.
  - bk H as [lp n1] E. bk H as [ln n2] E0. bg H as s1 E1. bg H as s2 E2. bk H as [i n3] E3. injection H as <- <-.
    destruct (again_lit _ _ _ _ _ E) as [G1 B1]. destruct (again_lit _ _ _ _ _ E0) as [G2 B2]. destruct (again_conf _ _ _ _ _ _ _ E3) as [G3 B3].
    split; [gt|]. intros m2 W L G. use B1 m2. use B2 m2. use B3 m2. auto.
Qed.
Lemma again_term_step table v loc nc zc k : replays (fun m => term_step table v loc (nc, zc, m) k).
Proof.
  intros m y m1 H. unfold term_step in H |- *. destruct (Nlookup _ nc); [injection H as <- <-; split; [apply grow_refl|auto]|].
  bg H as neg E. bg H as pos E1. bk H as [x n1] E2. injection H as <- <-. destruct (again_term_node _ _ _ _ _ _ E2) as [G B]. split; auto. intros m2 W L G2. use B m2. auto.
Qed.
Lemma again_cond_step nc zc v loc nc' zc' k : replays (fun m => cond_step nc zc v loc (nc', zc', m) k).
Proof.
  intros m y m1 H. unfold cond_step in H |- *. destruct (Nlookup _ nc'); [injection H as <- <-; split; [apply grow_refl|auto]|].
  bg H as neg E. bg H as pos E1. bg H as sn E2. bg H as sp E3. bk H as [x n1] E4. injection H as <- <-.
  destruct (again_cond_node _ _ _ _ _ _ _ _ E4) as [G B]. split; auto. intros m2 W L G2. use B m2. auto.
Qed.
Lemma again_level ord k nc zc x : replays (fun m => level_step ord (k, nc, zc, m) x).
Proof.
  intros m y m1 H. unfold level_step in H |- *. bg H as loc E. bk H as [c n1] E1. injection H as <- <-.
  destruct (again_foldM (cond_step nc zc (fst x) loc)) with (l := ord k (map fst nc)) (s := ([] : ncache, [] : @zcache P)) (m := m) (x := c) (m1 := n1) as [G B]; auto.
  - intros [nc0 zc0] a. apply again_cond_step.
  - split; auto. intros m2 W L G2. cbv [ncache zcache] in *. use B m2. auto.
Qed.
Theorem again_factor ord F : replays (compile_factor ord F).
Proof.
  intros m y m1 H.
  assert (forall m2, grow m m2 -> m_vt m2 = m_vt m) as V by (intros m2 G2; apply G2).
  unfold compile_factor in H |- *. bk H as ser E. bk H as u E0.
  destruct (combine _ _) as [|[v l] rest] eqn:EC in H; [discriminate|]. bg H as loc E1. bk H as [c n1] E2. bk H as [[[k nc] zc] n2] E3. bg H as u2 E4. bg H as r E5. bg H as z E6. bg H as i E7.
  bk H as [j n3] E8. injection H as <- <-.
  destruct (again_foldM (term_step (f_table F) v loc)) with (l := seq 0 (length (f_table F))) (s := ([] : ncache, [] : @zcache P)) (m := m) (x := c) (m1 := n1) as [G1 B1]; auto.
  { intros [nc0 zc0] a. apply again_term_step. }
  destruct (again_foldM (level_step ord)) with (l := rest) (s := (0, fst c, snd c)) (m := n1) (x := (k, nc, zc)) (m1 := n2) as [G2 B2]; auto.
  { intros [[k0 nc0] zc0] a. apply again_level. }
  destruct (replays_Normalize pg HO Hr Hi (pg_all _) (pg_all _) _ _ _ _ _ _ E8) as [G3 B3].
  split; [gt|]. intros m2 W L G. rewrite V by gt. rewrite E. cbn [bind]. rewrite E0. cbn [bind]. rewrite EC. rewrite E1. cbn [bind].
  cbv [ncache zcache] in *. use B1 m2. use B2 m2. rw. use B3 m2. auto.
Qed.
Lemma again_load ords : forall fs k z, replays (load_factors ords k fs z).
Proof.
  induction fs as [|F fs IH]; intros k z m y m1 H; cbn [load_factors] in H |- *.
  - injection H as <- <-. split; [apply grow_refl|auto].
  - bk H as [x n1] E. bk H as [y0 n2] E1. injection H as <- <-. destruct (again_factor _ _ _ _ _ E) as [G1 B1]. destruct (IH _ _ _ _ _ E1) as [G2 B2].
    split; [gt|]. intros m2 W L G. use B1 m2. use B2 m2. auto.
Qed.
Theorem again_network ords srt fs : replays (compile_network ords srt fs).
Proof.
  intros m y m1 H. unfold compile_network in H |- *. bk H as [x n1] E. bk H as order E1. destruct (again_load _ _ _ _ _ _ _ E) as [G1 B1].
  destruct y as [fin z1].
  destruct (again_foldM seq_step) with (l := order) (s := (None : option nat, snd x)) (m := n1) (x := (fin, z1)) (m1 := m1) as [G2 B2]; auto.
  - intros [f z] cur n0 y0 n2 H0. unfold seq_step in H0 |- *. destruct f as [a|]; [|injection H0 as <- <-; split; [apply grow_refl|auto]].
    bk H0 as [r n3] E2. injection H0 as <- <-. destruct (replays_Multiply pg HO Hr Hi (pg_all _) (pg_all _) pg_all _ _ _ _ _ _ E2) as [G B]. split; auto. intros m2 W L G3.
    cbv [mres] in *. use B m2. auto.
  - split; [gt|]. intros m2 W L G. use B1 m2. unfold compilation_order in E1 |- *. assert (m_vt m2 = m_vt n1) as -> by (apply (grow_trans _ _ _ G2 G)). rewrite E1. cbn [bind].
    use B2 m2. auto.
Qed.
End Again.
