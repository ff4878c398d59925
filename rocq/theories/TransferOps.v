(** TransferProofs continued: compilation of SDDs and CNFs, reading files, learning, compilation of networks (C66). *)
From Coq Require Import Reals Lra Ascii.
From Verif Require Import Base Param Vtree VtreeProofs Heap Manager HeapProofs SerProofs OrderProofs ReplayProofs TransferProofs.
From Verif Require Import Text IO Sdd Cnf Query Learn Pgm.
Close Scope R_scope.

Section Transfer.
Context {P P' : pops} (f : P -> P') (H : phom P P' f).
Notation mapm := (mapm f). Notation maph := (maph f). Notation mapn := (mapn f). Notation mape := (mape f). Notation sep := (sep f).
Notation sim := (@sim P P' f).
Ltac fail_case := apply sim_fail; intros; discriminate.

(** ** FromSdd *)
Lemma sim_from_elem sd nm vt fl st e : sim (fun m => from_elem sd nm vt fl (st, m) e) (fun m => from_elem sd nm vt fl (st, m) e).
Proof.
  destruct st as [[ps ss] tm]. intros m x m1 E. unfold from_elem in E |- *. cbn [TransferProofs.mapm m_vt].
  destruct (nlookup (fst e) nm) as [pp|]; [|discriminate]. bk E as sn Es. rewrite Es. cbn [bind].
  replace (MkM (m_vt m) (maph (m_heap m)) (m_live m)) with (mapm m) by reflexivity.
  assert (forall m2, grow m m2 -> m_vt m2 = m_vt m) as GV by (intros m2 (V & _); auto).
  destruct (s_body sn).
  - bk E as [[p1 tm1] m2] E1. bk E as rt Er. bk E as [[s1 tm2] m3] E2. injection E as <- <-.
    destruct (sim_normalize_with f H _ _ _ _ _ _ (sim_get_true f H gt_fuel) _ _ _ E1) as [G1 B1].
    destruct (sim_get_true f H gt_fuel _ _ _ _ _ _ E2) as [G2 B2].
    split; [eapply grow_trans; eauto|]. intros S. rewrite B1 by (eapply sep_grow; eauto). cbn [bind]. rewrite Er. cbn [bind]. rewrite B2 by auto. reflexivity.
  - injection E as <- <-. split; [apply grow_refl|reflexivity].
  - destruct (nlookup (snd e) nm) as [sp|]; [|discriminate]. bk E as [[p1 tm1] m2] E1. bk E as [[s1 tm2] m3] E2. injection E as <- <-.
    destruct (sim_normalize_with f H _ _ _ _ _ _ (sim_get_true f H gt_fuel) _ _ _ E1) as [G1 B1].
    destruct (sim_normalize_with f H _ _ _ _ _ _ (sim_get_true f H gt_fuel) _ _ _ E2) as [G2 B2].
    split; [eapply grow_trans; eauto|]. intros S. rewrite B1 by (eapply sep_grow; eauto). cbn [bind]. rewrite B2 by auto. reflexivity.
  - destruct (nlookup (snd e) nm) as [sp|]; [|discriminate]. bk E as [[p1 tm1] m2] E1. bk E as [[s1 tm2] m3] E2. injection E as <- <-.
    destruct (sim_normalize_with f H _ _ _ _ _ _ (sim_get_true f H gt_fuel) _ _ _ E1) as [G1 B1].
    destruct (sim_normalize_with f H _ _ _ _ _ _ (sim_get_true f H gt_fuel) _ _ _ E2) as [G2 B2].
    split; [eapply grow_trans; eauto|]. intros S. rewrite B1 by (eapply sep_grow; eauto). cbn [bind]. rewrite B2 by auto. reflexivity.
Qed.
Lemma ones_map n : repeat (@pone P') n = map f (repeat pone n).
Proof. induction n as [|n IH]; simpl; auto. rewrite <- IH, (h_one H). reflexivity. Qed.
Lemma sim_from_step sd d fl st n : sim (fun m => from_step sd d fl (st, m) n) (fun m => from_step sd d fl (st, m) n).
Proof.
  destruct st as [nm tm]. intros m x m1 E. unfold from_step in E |- *. cbn [TransferProofs.mapm m_vt].
  replace (MkM (m_vt m) (maph (m_heap m)) (m_live m)) with (mapm m) by reflexivity.
  bk E as sn Es. rewrite Es. cbn [bind]. destruct (s_body sn) as [| |l|es].
  - injection E as <- <-. split; [apply grow_refl|reflexivity].
  - injection E as <- <-. split; [apply grow_refl|reflexivity].
  - bk E as vt Ev. rewrite Ev. cbn [bind]. destruct (subtree (m_vt m) vt) as [[v|]|]; try discriminate.
    destruct (GetUniqueNode m _) as [i m2] eqn:E1. injection E as <- <-. split; [eapply unique_grow; eauto|]. intros S.
    pose proof (unique_map f H _ _ _ _ E1 S) as U. unfold TransferProofs.mapn in U. cbn [n_vt n_flag n_body mapb] in U. rewrite U. reflexivity.
  - bk E as vt Ev. rewrite Ev. cbn [bind]. bk E as [[[ps ss] tm1] m2] E1. bk E as u Eu. bk E as [i m3] E2. injection E as <- <-.
    destruct (sim_foldM f (from_elem sd nm vt fl) (from_elem sd nm vt fl)) with (l := es) (s := (@nil nat, @nil nat, tm)) (m := m) (x := (ps, ss, tm1)) (m1 := m2) as [G1 B1]; auto.
    { intros. apply sim_from_elem. }
    destruct (sim_new_dec f H _ _ _ _ _ _ _ _ E2) as [G2 B2]. split; [eapply grow_trans; eauto|]. intros S.
    rewrite B1 by (eapply sep_grow; eauto). cbn [bind]. rewrite Eu. cbn [bind]. rewrite ones_map, B2 by auto. reflexivity.
Qed.
Theorem sim_FromSdd sd order root svt fl target d : sim (FromSdd sd order root svt fl target d) (FromSdd sd order root svt fl target d).
Proof.
  intros m x m1 E. unfold FromSdd in E |- *. cbn [TransferProofs.mapm m_vt].
  replace (MkM (m_vt m) (maph (m_heap m)) (m_live m)) with (mapm m) by reflexivity.
  bk E as sn Es. rewrite Es. cbn [bind].
  assert ((do tp <- get target ;;
      do pt <- get (subtree (m_vt m) tp) ;;
      do pser <- SerializeVtree tp pt ;;
      do sser <- SerializeVtree [] svt ;;
      do d1 <- Tag d sser pser ;;
      do (x, m1) <- foldM (from_step sd d1 fl) order ([], [], m) ;;
      let '(nm, tm) := x in
      match nlookup root nm with
      | None => Abort
      | Some i =>
          do (y, m2) <- normalize_with (get_true gt_fuel) (Some tp) fl i tm m1 ;;
          Ok (Some (fst y), fold_left (fun d x => set_pdata d (fst x) None) sser d1, m2)
      end) = Ok (x, m1) -> grow m m1 /\ (sep (m_heap m1) -> 
    (do tp <- get target ;;
      do pt <- get (subtree (m_vt m) tp) ;;
      do pser <- SerializeVtree tp pt ;;
      do sser <- SerializeVtree [] svt ;;
      do d1 <- Tag d sser pser ;;
      do (x, m1) <- foldM (from_step sd d1 fl) order ([], [], mapm m) ;;
      let '(nm, tm) := x in
      match nlookup root nm with
      | None => Abort
      | Some i =>
          do (y, m2) <- normalize_with (get_true gt_fuel) (Some tp) fl i tm m1 ;;
          Ok (Some (fst y), fold_left (fun d x => set_pdata d (fst x) None) sser d1, m2)
      end) = Ok (x, mapm m1))) as K.
  { clear E. intros E. bk E as tp Et. rewrite Et. cbn [bind]. bk E as pt Ep. rewrite Ep. cbn [bind]. bk E as pser Eps. rewrite Eps. cbn [bind].
    bk E as sser Ess. rewrite Ess. cbn [bind]. bk E as d1 Ed. rewrite Ed. cbn [bind]. bk E as [[nm tm] m2] E1.
    destruct (nlookup root nm) as [i|] eqn:En; [|discriminate]. bk E as [y m3] E2. injection E as <- <-.
    destruct (sim_foldM f (from_step sd d1 fl) (from_step sd d1 fl)) with (l := order) (s := (@nil (nat * nat), @nil (nat * nat))) (m := m) (x := (nm, tm)) (m1 := m2) as [G1 B1]; auto.
    { intros. apply sim_from_step. }
    destruct (sim_normalize_with f H _ _ _ _ _ _ (sim_get_true f H gt_fuel) _ _ _ E2) as [G2 B2].
    split; [eapply grow_trans; eauto|]. intros S. pose proof (B1 (sep_grow f _ _ G2 S)) as B1'. unfold tmap, nmap in *. rewrite B1'. cbn [bind].
    rewrite En, B2 by auto. reflexivity. }
  destruct (s_body sn) as [| |l|es]; [| |auto..].
  - bk E as tp Et. rewrite Et. cbn [bind]. bk E as [i m2] E1. injection E as <- <-. destruct (sim_GetTrueNode f H _ _ _ _ _ E1) as [G B]. split; auto.
    intros S. rewrite B by auto. reflexivity.
  - injection E as <- <-. split; [apply grow_refl|reflexivity].
Qed.
Theorem sim_Compile libs cs fl : sim (Compile libs cs fl) (Compile libs cs fl).
Proof.
  intros m x m1 E. unfold Compile in E |- *. cbn [TransferProofs.mapm m_vt].
  replace (MkM (m_vt m) (maph (m_heap m)) (m_live m)) with (mapm m) by reflexivity.
  bk E as vs Ev. rewrite Ev. cbn [bind]. bk E as [svt u] Es. rewrite Es. cbn [bind]. bk E as [r s] Er. rewrite Er. cbn [bind].
  bk E as [y m2] E1. injection E as <- <-. unfold ConvertSddToPsdd in E1 |- *. destruct (sim_FromSdd _ _ _ _ _ _ _ _ _ _ E1) as [G B].
  split; auto. intros S. rewrite B by auto. reflexivity.
Qed.

(** ** ReadPsddFile.  [rd] and [rd'] read the same numbers. *)
Section Read.
Context (rd : text -> option P) (rd' : text -> option P') (log0 : P) (log0' : P').
Context (Hrd : forall s, rd' s = option_map f (rd s)) (Hlog0 : log0' = f log0).
Lemma ex_word_map st w st1 : ex_word rd log0 st = (w, st1) -> ex_word rd' log0' st = (option_map f w, st1).
Proof.
  unfold ex_word. intros E. destruct st as [s b]. destruct (negb b); [injection E as <- <-; reflexivity|].
  destruct (skip_ws s) as [|c s']; [injection E as <- <-; reflexivity|]. destruct (take_word (c :: s')) as [w0 r]. rewrite Hrd.
  destruct (rd w0); injection E as <- <-; simpl; [|rewrite Hlog0]; reflexivity.
Qed.
Lemma read_elems_map : forall n cache st x ws, read_elems rd log0 n cache st = Ok (x, ws) -> read_elems rd' log0' n cache st = Ok (x, map f ws).
Proof.
  induction n as [|n IH]; intros cache st x ws E; cbn [read_elems] in E |- *; [injection E as <- <-; reflexivity|].
  destruct (ex_u64 st) as [a st1]. destruct (ex_u64 st1) as [b st2]. destruct (ex_word rd log0 st2) as [w st3] eqn:Ew. rewrite (ex_word_map _ _ _ Ew).
  bk E as a' Ea. rewrite Ea. cbn [bind]. bk E as i Ei. rewrite Ei. cbn [bind]. bk E as b' Eb. rewrite Eb. cbn [bind]. bk E as j Ej. rewrite Ej. cbn [bind].
  bk E as w' Ew'. destruct w as [w|]; [|discriminate]. injection Ew' as ->. cbn [option_map get bind]. bk E as [[ps ss] ws'] E1. injection E as <- <-.
  rewrite (IH _ _ _ _ E1). reflexivity.
Qed.
Lemma sim_read_line fl st line : sim (fun m => read_line rd log0 fl (st, m) line) (fun m => read_line rd' log0' fl (st, m) line).
Proof.
  destruct st as [[cache root] psz]. intros m x m1 E. unfold read_line in E |- *.
  destruct (Ascii.eqb (head_char line) "c"%char); [injection E as <- <-; split; [apply grow_refl|reflexivity]|].
  destruct (Ascii.eqb (head_char line) "p"%char).
  { bk E as s Es. rewrite Es. injection E as <- <-. split; [apply grow_refl|reflexivity]. }
  match type of E with bind ?A _ = _ => set (F := A) in E end.
  bk E as [[k i] m2] EF. bk E as z Ez. injection E as <- <-. rewrite Ez.
  match goal with |- _ /\ (_ -> bind ?A _ = _) => assert (grow m m2 /\ (sep (m_heap m2) -> A = Ok (k, i, mapm m2))) as [G B] end.
  2: { split; auto. intros S. rewrite B by auto. reflexivity. }
  unfold F in EF. clear F. destruct (Ascii.eqb (head_char line) "L"%char).
  { bk EF as s Es. rewrite Es. cbn [bind]. destruct (ex_u64 (s, true)) as [k0 s1]. destruct (ex_u32 s1) as [u s2]. destruct (ex_i32 s2) as [l s3].
    bk EF as l' El. rewrite El. cbn [bind]. bk EF as [i0 m3] E1. bk EF as k' Ek. injection EF as <- <- <-.
    destruct (sim_literal f H _ _ _ _ _ E1) as [G B]. split; auto. intros S. rewrite B by auto. cbn [bind]. rewrite Ek. reflexivity. }
  destruct (Ascii.eqb (head_char line) "T"%char).
  { bk EF as s Es. rewrite Es. cbn [bind]. destruct (ex_u64 (s, true)) as [k0 s1]. destruct (ex_u32 s1) as [u s2]. destruct (ex_u32 s2) as [v s3].
    destruct (ex_word rd log0 s3) as [neg s4] eqn:En. rewrite (ex_word_map _ _ _ En). destruct (ex_word rd log0 s4) as [pos s5] eqn:Ep. rewrite (ex_word_map _ _ _ Ep).
    bk EF as v' Ev. rewrite Ev. cbn [bind]. bk EF as pos' Epos. destruct pos as [pos|]; [|discriminate]. injection Epos as ->.
    bk EF as neg' Eneg. destruct neg as [neg|]; [|discriminate]. injection Eneg as ->. bk EF as [i0 m3] E1. bk EF as k' Ek. injection EF as <- <- <-.
    destruct (sim_top f H _ _ _ _ _ _ _ E1) as [G B]. split; auto. intros S. cbn [option_map get bind]. rewrite B by auto. cbn [bind]. rewrite Ek. reflexivity. }
  bk EF as u Eu. rewrite Eu. cbn [bind]. bk EF as s Es. rewrite Es. cbn [bind]. destruct (ex_u64 (s, true)) as [k0 s1]. destruct (ex_i32 s1) as [u1 s2].
  destruct (ex_u64 s2) as [n s3]. bk EF as n' En. rewrite En. cbn [bind]. bk EF as [[ps ss] ws] E1. rewrite (read_elems_map _ _ _ _ _ E1). cbn [bind].
  bk EF as p0 Ep. rewrite Ep. cbn [bind]. bk EF as s0 Es0. rewrite Es0. cbn [bind]. bk EF as vp Evp. rewrite (read_vt_of f _ _ _ Evp). cbn [bind].
  bk EF as vs Evs. rewrite (read_vt_of f _ _ _ Evs). cbn [bind]. bk EF as u2 Eu2. rewrite Eu2. cbn [bind]. bk EF as next En2. rewrite En2. cbn [bind].
  bk EF as [i0 m3] E2. bk EF as k' Ek. injection EF as <- <- <-. destruct (sim_new_dec f H _ _ _ _ _ _ _ _ E2) as [G B]. split; auto.
  intros S. rewrite B by auto. cbn [bind]. rewrite Ek. reflexivity.
Qed.
Theorem sim_Read content fl : sim (ReadPsddFile rd log0 content fl) (ReadPsddFile rd' log0' content fl).
Proof.
  intros m x m1 E. unfold ReadPsddFile in E |- *. bk E as [st m2] E1. injection E as <- <-.
  destruct (sim_foldM f (read_line rd log0 fl) (read_line rd' log0' fl)) with (l := lines content) (s := (@nil (Z * nat), @None nat, @None Z)) (m := m) (x := st) (m1 := m2) as [G B]; auto.
  { intros. apply sim_read_line. }
  split; auto. intros S. pose proof (B S) as B'. unfold rstate in *. rewrite B'. reflexivity.
Qed.
End Read.

(** ** Learning *)
Section Learning.
Context (val : P -> R) (HP : pexact P val) (alpha : P) (Ha : (0 < val alpha)%R).
Lemma nonzero_div (a b : P) : val b <> 0%R -> f (pdiv a b) = pdiv (f a) (f b).
Proof.
  intros NZ. apply (h_div H). destruct (peq b pzero) eqn:E; auto. apply (val_eq HP) in E. rewrite (val_zero HP) in E. congruence.
Qed.
Lemma count_pos n : (0 < val (padd (pnat n) alpha))%R.
Proof. rewrite (val_add HP). pose proof (val_nonneg HP (pnat n)). lra. Qed.
Lemma fold_val l : forall a : P, (val a <= val (fold_left padd l a))%R.
Proof.
  induction l as [|w l IH]; intros a; simpl; [lra|]. eapply Rle_trans; [|apply IH]. rewrite (val_add HP). pose proof (val_nonneg HP w). lra.
Qed.
Lemma fold_map l : forall a, f (fold_left padd l a) = fold_left padd (map f l) (f a).
Proof. induction l as [|w l IH]; intros a; simpl; auto. rewrite IH, (h_add H). reflexivity. Qed.
Lemma weights_map ns : map (fun n => padd (pnat n) (f alpha)) ns = map f (map (fun n => padd (pnat n) alpha) ns).
Proof. rewrite map_map. apply map_ext. intros n. rewrite (h_add H), (h_nat H). reflexivity. Qed.
Lemma smooth_map ns : smooth (f alpha) ns = map f (smooth alpha ns).
Proof.
  unfold smooth. rewrite weights_map. rewrite <- (h_zero H), <- fold_map, !map_map. apply map_ext_in. intros n Hn.
  rewrite nonzero_div; [reflexivity|]. apply Rgt_not_eq. destruct ns as [|n0 ns]; [destruct Hn|]. cbn [map fold_left].
  eapply Rlt_le_trans; [|apply fold_val]. rewrite (val_add HP), (val_zero HP). pose proof (count_pos n0). lra.
Qed.
Lemma learn_params_map dc i nd ws : learn_params dc alpha i nd = Ok ws -> learn_params dc (f alpha) i (mapn nd) = Ok (map f ws).
Proof.
  unfold learn_params. unfold TransferProofs.mapn. cbn [n_body]. destruct (n_body nd) as [l|v pt pf|es]; cbn [mapb]; intros E.
  - injection E as <-. reflexivity.
  - bk E as a Ea. bk E as b Eb. injection E as <-. rewrite Ea. cbn [bind]. rewrite Eb. cbn [bind map].
    assert (val (padd (padd (pnat a) alpha) (padd (pnat b) alpha)) <> 0%R) as NZ.
    { rewrite (val_add HP). pose proof (count_pos a). pose proof (count_pos b). lra. }
    rewrite !nonzero_div, !(h_add H), !(h_nat H) by auto. reflexivity.
  - bk E as ns En. injection E as <-. rewrite map_length, En. cbn [bind]. rewrite smooth_map. reflexivity.
Qed.
Lemma sim_relab (hs : heap P) fl ud i ws : sim (fun m => relab_step hs fl (ud, m) i ws) (fun m => relab_step (maph hs) fl (ud, m) i (map f ws)).
Proof.
  intros m x m1 E. unfold relab_step, node_of in E |- *. rewrite maph_nth. destruct (nth_error hs i) as [nd|]; [|discriminate]. cbn [option_map get bind] in E |- *.
  unfold TransferProofs.mapn. cbn [n_body]. destruct (n_body nd) as [l|v pt pf|es]; cbn [mapb].
  - bk E as [j m2] E1. injection E as <- <-. destruct (sim_literal f H _ _ _ _ _ E1) as [G B]. split; auto. intros S. rewrite B by auto. reflexivity.
  - destruct ws as [|a [|b [|]]]; try discriminate. cbn [map]. bk E as [j m2] E1. injection E as <- <-. destruct (sim_top f H _ _ _ _ _ _ _ E1) as [G B]. split; auto. intros S. rewrite B by auto. reflexivity.
  - bk E as ps Ep. bk E as ss Es. bk E as [j m2] E1. injection E as <- <-. destruct (sim_Conformed f H _ _ _ _ _ _ _ E1) as [G B]. split; auto.
    intros S. rewrite !mapM_map. cbn [TransferProofs.mape e_prime e_sub]. rewrite Ep. cbn [bind]. rewrite Es. cbn [bind]. rewrite B by auto. reflexivity.
Qed.
Lemma sim_learn_step (hs : heap P) dc fl ud i : sim (fun m => learn_step hs dc alpha fl (ud, m) i) (fun m => learn_step (maph hs) dc (f alpha) fl (ud, m) i).
Proof.
  intros m x m1 E. unfold learn_step in E |- *. bk E as nd En. bk E as ws Ew. unfold node_of in En |- *. rewrite maph_nth. destruct (nth_error hs i) as [nd'|]; [|discriminate].
  injection En as ->. cbn [option_map get bind]. rewrite (learn_params_map _ _ _ _ Ew). cbn [bind]. apply sim_relab. auto.
Qed.
Lemma foldM_ext {S A} (g g' : S -> A -> res S) : (forall s a, g s a = g' s a) -> forall l s, foldM g l s = foldM g' l s.
Proof. intros E l. induction l as [|a l IH]; intros s; simpl; auto. rewrite E. destruct (g' s a); cbn [bind]; auto. Qed.
Lemma foldM_map' {S A B} (g : S -> B -> res S) (h : A -> B) : forall l s, foldM g (map h l) s = foldM (fun s a => g s (h a)) l s.
Proof. intros l. induction l as [|a l IH]; intros s; simpl; auto. destruct (g s (h a)); cbn [bind]; auto. Qed.
Lemma value_step_map (hs : heap P) ex n st i : value_step (maph hs) ex n st i = value_step hs ex n st i.
Proof.
  unfold value_step, node_of. destruct st as [vals ctxs]. rewrite maph_nth. destruct (nth_error hs i) as [nd|]; [|reflexivity]. cbn [option_map get bind].
  unfold value_node, TransferProofs.mapn. cbn [n_body]. destruct (n_body nd) as [l|v pt pf|es]; cbn [mapb]; auto. rewrite foldM_map'. reflexivity.
Qed.
Lemma context_step_map (hs : heap P) ex st i : context_step (maph hs) ex st i = context_step hs ex st i.
Proof.
  unfold context_step, node_of. destruct st as [[vals ctxs] dc]. rewrite maph_nth. destruct (nth_error hs i) as [nd|]; [|reflexivity]. cbn [option_map get bind].
  unfold TransferProofs.mapn. cbn [n_body]. destruct (n_body nd) as [l|v pt pf|es]; cbn [mapb]; auto. rewrite foldM_map'. reflexivity.
Qed.
Theorem sim_Learn (hs : heap P) ud dc root ex n fl : sim (LearnPsddParameters hs ud dc root ex n alpha fl) (LearnPsddParameters (maph hs) ud dc root ex n (f alpha) fl).
Proof.
  intros m x m1 E. unfold LearnPsddParameters in E |- *. rewrite serialize_map. bk E as ser Es. rewrite Es. cbn [bind].
  rewrite !(foldM_ext (value_step (maph hs) ex n) (value_step hs ex n)) by (apply value_step_map).
  bk E as dc1 Ed. bk E as [ud1 m2] E1. bk E as r Er. injection E as <- <-.
  assert ((if Nat.eqb n 0 then Ok dc
      else
        do (vals, ctxs) <- foldM (value_step hs ex n) (rev ser) (fun _ => [], fun _ => []) ;;
        do (_, dc1) <- foldM (context_step (maph hs) ex) ser (vals, set_at ctxs root (map negb (ctxs root)), dc) ;;
        Ok dc1) = Ok dc1) as Ed'.
  { destruct (Nat.eqb n 0); auto. bk Ed as [vals ctxs] Ev. rewrite Ev. cbn [bind]. rewrite (foldM_ext _ _ (context_step_map hs ex)). exact Ed. }
  rewrite Ed'. cbn [bind].
  destruct (sim_foldM f (learn_step hs dc1 alpha fl) (learn_step (maph hs) dc1 (f alpha) fl)) with (l := rev ser) (s := ud) (m := m) (x := ud1) (m1 := m2) as [G B]; auto.
  { intros. apply sim_learn_step. }
  split; auto. intros S. rewrite B by auto. cbn [bind]. rewrite Er. reflexivity.
Qed.
End Learning.

(** ** Networks.  The second comparison recognises zero. *)
Section Networks.
Context (HZ : forall a : P, peq (f a) pzero = peq a pzero).
Definition mapf (F : factor P) : factor P' := MkF (f_scope F) (map f (f_table F)).
Definition mapz (zc : @zcache P) : @zcache P' := map (fun x => (fst x, f (snd x))) zc.
(** Like [sim], for operations that also carry parameters *)
Definition simx {X X'} (mx : X -> X') (F : mgr P -> res (X * mgr P)) (F' : mgr P' -> res (X' * mgr P')) : Prop :=
  forall m x m1, F m = Ok (x, m1) -> grow m m1 /\ (sep (m_heap m1) -> F' (mapm m) = Ok (mx x, mapm m1)).
Lemma simx_ret {X X'} (mx : X -> X') x x' : x' = mx x -> simx mx (fun m => Ok (x, m)) (fun m => Ok (x', m)).
Proof. intros -> m y m1 E. injection E as <- <-. split; [apply grow_refl|reflexivity]. Qed.
Lemma simx_bind {X X' Y Y'} (mx : X -> X') (my : Y -> Y') (F : mgr P -> res (X * mgr P)) F' (k : X -> mgr P -> res (Y * mgr P)) k' :
  simx mx F F' -> (forall x, simx my (k x) (k' (mx x))) ->
  simx my (fun m => do (x, m1) <- F m ;; k x m1) (fun m => do (x, m1) <- F' m ;; k' x m1).
Proof.
  intros SF SK m y m1 E. bk E as [x m2] E1. destruct (SF _ _ _ E1) as [G1 B1]. destruct (SK _ _ _ _ E) as [G2 B2].
  split; [eapply grow_trans; eauto|]. intros S. rewrite B1 by (eapply sep_grow; eauto). cbn [bind]. auto.
Qed.
Lemma simx_foldM {S S' A A'} (ms : S -> S') (ma : A -> A') (step : S * mgr P -> A -> res (S * mgr P)) step' :
  (forall s a, simx ms (fun m => step (s, m) a) (fun m => step' (ms s, m) (ma a))) ->
  forall l s, simx ms (fun m => foldM step l (s, m)) (fun m => foldM step' (map ma l) (ms s, m)).
Proof.
  intros R l. induction l as [|a l IH]; intros s m x m1 E; cbn [foldM map] in E |- *.
  - injection E as <- <-. split; [apply grow_refl|reflexivity].
  - bk E as [s' m2] E1. destruct (R s a m s' m2 E1) as [G1 B1]. destruct (IH s' m2 x m1 E) as [G2 B2]. split; [eapply grow_trans; eauto|].
    intros S0. rewrite B1 by (eapply sep_grow; eauto). cbn [bind]. auto.
Qed.
Definition mapt (x : option nat * P) : option nat * P' := (fst x, f (snd x)).
Lemma norm_div (a b : P) : peq b pzero = false -> f (pdiv a b) = pdiv (f a) (f b).
Proof. apply (h_div H). Qed.
Lemma sim_term_node v pos neg : simx mapt (term_node v pos neg) (term_node v (f pos) (f neg)).
Proof.
  intros m x m1 E. unfold term_node in E |- *. rewrite <- (h_add H), !HZ. destruct (peq (padd pos neg) pzero) eqn:En.
  { injection E as <- <-. split; [apply grow_refl|]. unfold mapt. cbn [fst snd]. rewrite (h_zero H). reflexivity. }
  destruct (peq pos pzero).
  { bk E as [i m2] E1. injection E as <- <-. destruct (sim_literal f H _ _ _ _ _ E1) as [G B]. split; auto. intros S. rewrite B by auto. reflexivity. }
  destruct (peq neg pzero).
  { bk E as [i m2] E1. injection E as <- <-. destruct (sim_literal f H _ _ _ _ _ E1) as [G B]. split; auto. intros S. rewrite B by auto. reflexivity. }
  bk E as [i m2] E1. injection E as <- <-. destruct (sim_top f H _ _ _ _ _ _ _ E1) as [G B]. split; auto. intros S.
  rewrite <- !norm_div by auto. rewrite B by auto. reflexivity.
Qed.
Lemma Nlookup_map k zc : Nlookup k (mapz zc) = option_map f (Nlookup k zc).
Proof. induction zc as [|[k' z] zc IH]; simpl; auto. destruct (N.eqb k k'); auto. Qed.
Lemma at_map k zc z : at_ k zc = Ok z -> at_ k (mapz zc) = Ok (f z).
Proof. unfold at_. rewrite Nlookup_map. destruct (Nlookup k zc); [|discriminate]. intros E. injection E as <-. reflexivity. Qed.
Definition mapcz (c : ncache * zcache) : ncache * @zcache P' := (fst c, mapz (snd c)).
Lemma sim_term_step table v loc c k : simx mapcz (fun m => term_step table v loc (c, m) k) (fun m => term_step (map f table) v loc (mapcz c, m) k).
Proof.
  destruct c as [nc zc]. intros m x m1 E. unfold term_step in E |- *. cbn [mapcz fst snd].
  destruct (Nlookup (N.clearbit (N.of_nat k) loc) nc); [injection E as <- <-; split; [apply grow_refl|reflexivity]|].
  bk E as neg En. bk E as pos Ep. bk E as [y m2] E1. injection E as <- <-.
  destruct (sim_term_node _ _ _ _ _ _ E1) as [G B]. split; auto. intros S. rewrite !nth_error_map.
  destruct (nth_error table (N.to_nat (N.clearbit (N.of_nat k) loc))); [|discriminate]. injection En as ->. cbn [option_map get bind].
  destruct (nth_error table (N.to_nat (N.setbit (N.clearbit (N.of_nat k) loc) loc))); [|discriminate]. injection Ep as ->. cbn [option_map get bind].
  rewrite B by auto. reflexivity.
Qed.
Lemma sim_cond_node v pos neg sp sn : simx mapt (cond_node v pos neg sp sn) (cond_node v (f pos) (f neg) sp sn).
Proof.
  intros m x m1 E. unfold cond_node in E |- *. rewrite <- (h_add H), !HZ. destruct (peq (padd pos neg) pzero) eqn:En.
  { injection E as <- <-. split; [apply grow_refl|]. unfold mapt. cbn [fst snd]. rewrite (h_zero H). reflexivity. }
  destruct (peq pos pzero).
  { bk E as [ln m2] E1. bk E as s Es. bk E as [i m3] E2. injection E as <- <-. destruct (sim_literal f H _ _ _ _ _ E1) as [G B].
    destruct (sim_Conformed f H _ _ _ _ _ _ _ E2) as [G2 B2]. split; [eapply grow_trans; eauto|]. intros S. rewrite B by (eapply sep_grow; eauto). cbn [bind].
    rewrite Es. cbn [bind]. rewrite (one_map f H), B2 by auto. reflexivity. }
  destruct (peq neg pzero).
  { bk E as [lp m2] E1. bk E as s Es. bk E as [i m3] E2. injection E as <- <-. destruct (sim_literal f H _ _ _ _ _ E1) as [G B].
    destruct (sim_Conformed f H _ _ _ _ _ _ _ E2) as [G2 B2]. split; [eapply grow_trans; eauto|]. intros S. rewrite B by (eapply sep_grow; eauto). cbn [bind].
    rewrite Es. cbn [bind]. rewrite (one_map f H), B2 by auto. reflexivity. }
  bk E as [lp m2] E1. bk E as [ln m3] E2. bk E as s1 Es1. bk E as s2 Es2. bk E as [i m4] E3. injection E as <- <-.
  destruct (sim_literal f H _ _ _ _ _ E1) as [G B]. destruct (sim_literal f H _ _ _ _ _ E2) as [G2 B2].
  destruct (sim_Conformed f H _ _ _ _ _ _ _ E3) as [G3 B3]. split; [eapply grow_trans; [|eapply grow_trans]; eauto|]. intros S.
  pose proof (sep_grow f _ _ G3 S) as S3. pose proof (sep_grow f _ _ G2 S3) as S2.
  rewrite B by auto. cbn [bind]. rewrite B2 by auto. cbn [bind]. rewrite Es1. cbn [bind]. rewrite Es2. cbn [bind].
  rewrite <- !norm_div by auto. cbn [map] in B3. rewrite B3 by auto. reflexivity.
Qed.
Lemma sim_cond_step nc zc v loc c last : simx mapcz (fun m => cond_step nc zc v loc (c, m) last) (fun m => cond_step nc (mapz zc) v loc (mapcz c, m) last).
Proof.
  destruct c as [nc' zc']. intros m x m1 E. unfold cond_step in E |- *. cbn [mapcz fst snd].
  destruct (Nlookup (N.clearbit last loc) nc'); [injection E as <- <-; split; [apply grow_refl|reflexivity]|].
  bk E as neg En. bk E as pos Ep. bk E as sn Esn. bk E as sp Esp. bk E as [y m2] E1. injection E as <- <-.
  destruct (sim_cond_node _ _ _ _ _ _ _ _ E1) as [G B]. split; auto. intros S. rewrite (at_map _ _ _ En). cbn [bind]. rewrite (at_map _ _ _ Ep). cbn [bind].
  rewrite Esn. cbn [bind]. rewrite Esp. cbn [bind]. rewrite B by auto. reflexivity.
Qed.
Definition maplz (c : nat * ncache * zcache) : nat * ncache * @zcache P' := (fst c, mapz (snd c)).
Lemma sim_level_step ord c x : simx maplz (fun m => level_step ord (c, m) x) (fun m => level_step ord (maplz c, m) x).
Proof.
  destruct c as [[k nc] zc]. intros m y m1 E. unfold level_step in E |- *. cbn [maplz fst snd]. bk E as loc El. rewrite El. cbn [bind].
  bk E as [c m2] E1. injection E as <- <-.
  destruct (simx_foldM mapcz (fun a => a) (cond_step nc zc (fst x) loc) (cond_step nc (mapz zc) (fst x) loc) (sim_cond_step _ _ _ _) _ _ _ _ _ E1) as [G B].
  split; auto. intros S. pose proof (B S) as B'. rewrite map_id in B'. unfold mapcz, mapz, ncache, zcache in *. cbn [fst snd map] in *. rewrite B'. reflexivity.
Qed.
Lemma mapz_length zc : length (mapz zc) = length zc.
Proof. apply map_length. Qed.
Definition mapiz (x : nat * P) : nat * P' := (fst x, f (snd x)).
Theorem sim_compile_factor ord F : simx mapiz (compile_factor ord F) (compile_factor ord (mapf F)).
Proof.
  intros m x m1 E. unfold compile_factor in E |- *. cbn [mapf f_scope f_table]. cbn [TransferProofs.mapm m_vt].
  replace (MkM (m_vt m) (maph (m_heap m)) (m_live m)) with (mapm m) by reflexivity.
  bk E as ser Es. rewrite Es. cbn [bind]. bk E as u Eu. rewrite Eu. cbn [bind].
  match goal with |- _ /\ (_ -> match ?X with _ => _ end = _) => destruct X as [|[v l] rest] end; [discriminate|].
  bk E as loc El. rewrite El. cbn [bind]. bk E as [c m2] E1. bk E as [[[k nc] zc] m3] E2. bk E as u2 Eu2. bk E as r Er. bk E as z Ez. bk E as i Ei.
  bk E as [j m4] E3. injection E as <- <-.
  destruct (simx_foldM mapcz (fun a => a) (term_step (f_table F) v loc) (term_step (map f (f_table F)) v loc) (sim_term_step _ _ _) _ _ _ _ _ E1) as [G1 B1].
  destruct (simx_foldM maplz (fun a => a) (level_step ord) (level_step ord) (sim_level_step ord) _ _ _ _ _ E2) as [G2 B2].
  destruct (sim_Normalize f H _ _ _ _ _ _ E3) as [G3 B3]. split; [eapply grow_trans; [|eapply grow_trans]; eauto|]. intros S.
  pose proof (sep_grow f _ _ G3 S) as S3. pose proof (sep_grow f _ _ G2 S3) as S2. pose proof (B1 S2) as B1'. pose proof (B2 S3) as B2'.
  rewrite map_id in B1', B2'. rewrite map_length. unfold mapcz, maplz, mapz, ncache, zcache in *. cbn [fst snd map] in B1', B2'. rewrite B1'. cbn [bind fst snd].
  rewrite B2'. cbn [bind]. rewrite Eu2. cbn [bind]. rewrite Er. cbn [bind]. pose proof (at_map _ _ _ Ez) as Az. unfold mapz in Az. rewrite Az. cbn [bind].
  rewrite Ei. cbn [bind]. rewrite B3 by auto. reflexivity.
Qed.
Definition maplp (x : list nat * P) : list nat * P' := (fst x, f (snd x)).
Lemma sim_load_factors ords : forall fs k z, simx maplp (load_factors ords k fs z) (load_factors ords k (map mapf fs) (f z)).
Proof.
  induction fs as [|F fs IH]; intros k z m x m1 E; cbn [load_factors map] in E |- *.
  - injection E as <- <-. split; [apply grow_refl|reflexivity].
  - bk E as [y m2] E1. bk E as [w m3] E2. injection E as <- <-. destruct (sim_compile_factor _ _ _ _ _ E1) as [G1 B1].
    destruct (IH _ _ _ _ _ E2) as [G2 B2]. split; [eapply grow_trans; eauto|]. intros S. rewrite B1 by (eapply sep_grow; eauto). cbn [bind mapiz fst snd].
    rewrite <- (h_mul H), B2 by auto. reflexivity.
Qed.
Lemma order_map srt m fs nodes o : compilation_order srt m fs nodes = Ok o -> compilation_order srt (mapm m) (map mapf fs) nodes = Ok o.
Proof. unfold compilation_order. cbn [TransferProofs.mapm m_vt]. intros E. bk E as ser Es. rewrite Es. cbn [bind]. rewrite mapM_map. exact E. Qed.
Lemma sim_multiply a b fl : simx mapt (fun m => Multiply m a b fl) (fun m => Multiply m a b fl).
Proof. intros m r m1 E. destruct (sim_Multiply f H _ _ _ _ _ _ E) as [G B]. split; auto. Qed.
Lemma sim_seq_step st cur : simx mapt (fun m => seq_step (st, m) cur) (fun m => seq_step (mapt st, m) cur).
Proof.
  destruct st as [fin z]. intros m x m1 E. unfold seq_step in E |- *. cbn [mapt fst snd]. destruct fin as [a|].
  - bk E as [r m2] E1. injection E as <- <-. destruct (sim_multiply _ _ _ _ _ _ E1) as [G B]. split; auto. intros S. rewrite B by auto.
    cbn [bind mapt fst snd]. rewrite <- (h_mul H). reflexivity.
  - injection E as <- <-. split; [apply grow_refl|reflexivity].
Qed.
Theorem sim_compile_network ords srt fs : simx mapt (compile_network ords srt fs) (compile_network ords srt (map mapf fs)).
Proof.
  intros m x m1 E. unfold compile_network in E |- *. bk E as [y m2] E1. bk E as order Eo.
  destruct (sim_load_factors _ _ _ _ _ _ _ E1) as [G1 B1].
  destruct (simx_foldM mapt (fun a => a) seq_step seq_step sim_seq_step _ _ _ _ _ E) as [G2 B2]. split; [eapply grow_trans; eauto|]. intros S.
  pose proof (B1 (sep_grow f _ _ G2 S)) as B1'. rewrite (h_one H) in B1'. rewrite B1'. cbn [bind maplp fst snd]. rewrite (order_map _ _ _ _ _ Eo). cbn [bind].
  pose proof (B2 S) as B2'. rewrite map_id in B2'. exact B2'.
Qed.

(** Garbage collections only shrink the table. *)
Definition simp {X X'} (mx : X -> X') (F : mgr P -> res (X * mgr P)) (F' : mgr P' -> res (X' * mgr P')) : Prop :=
  forall m x m1, F m = Ok (x, m1) -> prefix m m1 /\ (sep (m_heap m1) -> F' (mapm m) = Ok (mx x, mapm m1)).
Lemma prefix_refl (m : mgr P) : prefix m m.
Proof. exists []. rewrite app_nil_r. reflexivity. Qed.
Lemma prefix_trans (a b c : mgr P) : prefix a b -> prefix b c -> prefix a c.
Proof. intros [l1 E1] [l2 E2]. exists (l1 ++ l2). rewrite E2, E1, app_assoc. reflexivity. Qed.
Lemma sep_prefix (m m' : mgr P) : prefix m m' -> sep (m_heap m') -> sep (m_heap m).
Proof. intros A. apply sep_sub. apply prefix_incl. auto. Qed.
Definition mapq (x : list (option nat) * P) : list (option nat) * P' := (fst x, f (snd x)).
Lemma sim_queue_loop : forall fuel gc queue proc z, simp mapq (queue_loop fuel gc queue proc z) (queue_loop fuel gc queue proc (f z)).
Proof.
  induction fuel as [|fu IH]; intros gc queue proc z m x m1 E; cbn [queue_loop] in E |- *; (destruct queue as [|a [|b queue]];
    [injection E as <- <-; split; [apply prefix_refl|reflexivity]..|]); [discriminate|].
  bk E as a' Ea. rewrite Ea. cbn [bind]. bk E as b' Eb. rewrite Eb. cbn [bind]. bk E as [r m2] E1. bk E as u Eu. bk E as m3 E2.
  destruct (sim_multiply _ _ _ _ _ _ E1) as [G1 B1]. destruct (IH _ _ _ _ _ _ _ E) as [G3 B3].
  assert (prefix m2 m3 /\ (if N.eqb ((proc + 1) mod gc) 0 then do used <- mapM get (queue ++ [fst r]) ;; DeleteUnusedPsddNodes (mapm m2) used else Ok (mapm m2)) = Ok (mapm m3)) as [G2 B2].
  { destruct (N.eqb ((proc + 1) mod gc) 0); [|injection E2 as <-; split; [apply prefix_refl|reflexivity]].
    bk E2 as used Eus. rewrite Eus. cbn [bind]. unfold DeleteUnusedPsddNodes in E2 |- *. bk E2 as cov Ec. injection E2 as <-. split; [exists []; rewrite app_nil_r; reflexivity|].
    cbn [TransferProofs.mapm m_heap]. rewrite covered_map, Ec. reflexivity. }
  assert (prefix m2 m1) as G23 by (eapply prefix_trans; eauto).
  split; [eapply prefix_trans; [apply grow_prefix; eauto|auto]|]. intros S. rewrite B1 by (eapply sep_prefix; eauto). cbn [bind mapt fst snd].
  rewrite Eu. cbn [bind]. rewrite B2. cbn [bind]. rewrite <- (h_mul H). auto.
Qed.
Theorem sim_compile_network_dc ords srt gc fs : simp mapt (compile_network_dc ords srt gc fs) (compile_network_dc ords srt gc (map mapf fs)).
Proof.
  intros m x m1 E. unfold compile_network_dc in E |- *. bk E as [y m2] E1. bk E as order Eo. bk E as [w m3] E2. bk E as r Er. injection E as <- <-.
  destruct (sim_load_factors _ _ _ _ _ _ _ E1) as [G1 B1]. destruct (sim_queue_loop _ _ _ _ _ _ _ _ E2) as [G2 B2].
  split; [eapply prefix_trans; [apply grow_prefix|]; eauto|]. intros S.
  pose proof (B1 (sep_prefix _ _ G2 S)) as B1'. rewrite (h_one H) in B1'. rewrite B1'. cbn [bind maplp fst snd]. rewrite (order_map _ _ _ _ _ Eo). cbn [bind].
  rewrite B2 by auto. cbn [bind mapq fst snd]. rewrite Er. reflexivity.
Qed.
Definition mapbk (x : option nat * N * P) : option nat * N * P' := (fst x, f (snd x)).
Lemma sim_bucket_loop : forall nodes total proc z, simx mapbk (bucket_loop nodes total proc z) (bucket_loop nodes total proc (f z)).
Proof.
  induction nodes as [|cur nodes IH]; intros total proc z m x m1 E; cbn [bucket_loop] in E |- *.
  - injection E as <- <-. split; [apply grow_refl|reflexivity].
  - destruct total as [a|]; [|apply IH; auto]. bk E as [r m2] E1. destruct (sim_multiply _ _ _ _ _ _ E1) as [G1 B1]. destruct (IH _ _ _ _ _ _ E) as [G2 B2].
    split; [eapply grow_trans; eauto|]. intros S. rewrite B1 by (eapply sep_grow; eauto). cbn [bind mapt fst snd]. rewrite <- (h_mul H). auto.
Qed.
Definition mapbs (x : list (option nat) * N * P) : list (option nat) * N * P' := (fst x, f (snd x)).
Lemma sim_bucket_step root at_pos st v : simx mapbs (fun m => bucket_step root at_pos (st, m) v) (fun m => bucket_step root at_pos (mapbs st, m) v).
Proof.
  destruct st as [[out proc] z]. intros m x m1 E. unfold bucket_step in E |- *. cbn [mapbs fst snd].
  destruct (map snd _) as [|n0 nodes]; [injection E as <- <-; split; [apply grow_refl|reflexivity]|].
  bk E as [[[total proc1] z1] m2] E1. bk E as t Et. injection E as <- <-. destruct (sim_bucket_loop _ _ _ _ _ _ _ E1) as [G B]. split; auto. intros S.
  rewrite B by auto. cbn [bind mapbk fst snd]. rewrite Et. reflexivity.
Qed.
Lemma mapM_ext {A B} (g g' : A -> res B) l : (forall a, g a = g' a) -> mapM g l = mapM g' l.
Proof. intros E. induction l as [|a l IH]; simpl; auto. rewrite E, IH. reflexivity. Qed.
Theorem sim_compile_network_with_vtree ords gc fs :
  simp mapt (compile_network_with_vtree ords gc fs) (compile_network_with_vtree ords gc (map mapf fs)).
Proof.
  intros m x m1 E. unfold compile_network_with_vtree in E |- *. cbn [TransferProofs.mapm m_vt].
  replace (MkM (m_vt m) (maph (m_heap m)) (m_live m)) with (mapm m) by reflexivity.
  bk E as ser Es. rewrite Es. cbn [bind]. bk E as [y m2] E1. bk E as ps Ep. bk E as [[[out proc] z] m3] E2. bk E as [w m4] E3. bk E as r Er. injection E as <- <-.
  destruct (sim_load_factors _ _ _ _ _ _ _ E1) as [G1 B1].
  destruct (simx_foldM mapbs (fun a => a) _ _ (sim_bucket_step _ _) _ _ _ _ _ E2) as [G2 B2].
  destruct (sim_queue_loop _ _ _ _ _ _ _ _ E3) as [G3 B3].
  assert (prefix m2 m4) as G23 by (eapply prefix_trans; [apply grow_prefix|]; eauto).
  split; [eapply prefix_trans; [apply grow_prefix|]; eauto|]. intros S.
  pose proof (B1 (sep_prefix _ _ G23 S)) as B1'. rewrite (h_one H) in B1'. rewrite B1'. cbn [bind maplp fst snd].
  rewrite mapM_map. rewrite (mapM_ext (fun a => attach (m_vt m) (mapf a)) (attach (m_vt m))) by reflexivity. rewrite Ep. cbn [bind].
  pose proof (B2 (sep_prefix _ _ G3 S)) as B2'. rewrite map_id in B2'. unfold mapbs in B2'. cbn [fst snd] in B2'. rewrite B2'. cbn [bind].
  rewrite B3 by auto. cbn [bind mapq fst snd]. rewrite Er. reflexivity.
Qed.
End Networks.

(** ** Evaluate *)
Lemma eval_fold_map (c : nat -> P) (c' : nat -> P') es : (forall i, c' i = f (c i)) -> forall a,
  fold_left (fun acc e => padd acc (pmul (pmul (c' (e_prime e)) (c' (e_sub e))) (e_param e))) (map mape es) (f a) =
  f (fold_left (fun acc e => padd acc (pmul (pmul (c (e_prime e)) (c (e_sub e))) (e_param e))) es a).
Proof.
  intros C. induction es as [|e es IH]; intros a; cbn [map fold_left]; auto. rewrite <- IH. cbn [TransferProofs.mape e_prime e_sub e_param].
  rewrite (h_add H), !(h_mul H), !C. reflexivity.
Qed.
Lemma eval_node_map mask x (c : nat -> P) (c' : nat -> P') nd : (forall i, c' i = f (c i)) -> eval_node mask x c' (mapn nd) = f (eval_node mask x c nd).
Proof.
  intros C. unfold eval_node, TransferProofs.mapn. cbn [n_body]. destruct (n_body nd) as [l|v pt pf|es]; cbn [mapb].
  - destruct (mask (lit_var l)); [|rewrite (h_one H); auto]. destruct (Bool.eqb _ _); [rewrite (h_one H)|rewrite (h_zero H)]; auto.
  - destruct (mask v); [|rewrite (h_one H); auto]. destruct (x v); auto.
  - rewrite <- (h_zero H) at 1. apply eval_fold_map. auto.
Qed.
Theorem Evaluate_map (h : heap P) mask x root w : Evaluate h mask x root = Ok w -> Evaluate (maph h) mask x root = Ok (f w).
Proof.
  unfold Evaluate, EvaluateNodes. intros E. bk E as L EL. rewrite serialize_map, EL. cbn [bind]. bk E as c Ec. bk E as r Er. injection E as <-.
  assert (forall l c0 c0' c1, (forall i, c0' i = f (c0 i)) -> foldM (eval_step h mask x) l c0 = Ok c1 ->
    exists c1', foldM (eval_step (maph h) mask x) l c0' = Ok c1' /\ forall i, c1' i = f (c1 i)) as K.
  { induction l as [|j l IH]; intros c0 c0' c1 C F; cbn [foldM] in F |- *; [injection F as <-; eauto|]. bk F as c2 F1.
    unfold eval_step, node_of in F1 |- *. rewrite maph_nth. destruct (nth_error h j) as [nd|]; [|discriminate]. cbn [get bind option_map] in F1 |- *. injection F1 as <-.
    eapply IH; eauto. intros i. unfold set_at. destruct (Nat.eqb i j); auto. apply eval_node_map. auto. }
  destruct (K _ (fun _ => pzero) (fun _ => pzero) _ (fun _ => eq_sym (h_zero H)) Ec) as (c' & Ec' & C). rewrite Ec'. cbn [bind]. rewrite Er. cbn [bind]. rewrite C. reflexivity.
Qed.
End Transfer.
