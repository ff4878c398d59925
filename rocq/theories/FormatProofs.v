(** The text of PSDD files: the format that the comments of the file announce (C83). *)
From Coq Require Import Ascii String Reals Lra Permutation.
From Verif Require Import Base Param ParamProofs Vtree VtreeProofs Spec SpecProofs Heap Manager HeapProofs SerProofs RepProofs LoadProofs ReplayProofs
  Text IO IOProofs FixedProofs Data Uai NumProofs FileProofs Cut CutLine.

(** ** Words and numerals *)
(** the parts of a line between single blanks *)
Fixpoint words_from (acc s : text) : list text :=
  match s with
  | [] => [rev acc]
  | c :: s' => if Ascii.eqb c blank then rev acc :: words_from [] s' else words_from (c :: acc) s'
  end.
Definition words (s : text) : list text := words_from [] s.
(** n written in decimal, without leading zeros *)
Definition decimal (n : N) (w : text) : Prop := exists ds, w = numeral ds /\ is_digits ds /\ ds <> [] /\ value ds = n /\ (hd_error ds = Some 0%N -> ds = [0%N]).
(** a number with its sign if it is negative *)
Definition integer (z : Z) (w : text) : Prop := if (z <? 0)%Z then exists w', w = "-"%char :: w' /\ decimal (Z.abs_N z) w' else decimal (Z.abs_N z) w.

Lemma words_from_word w : forall acc s, Forall plain w -> words_from acc (w ++ blank :: s) = rev (rev w ++ acc) :: words s.
Proof.
  induction w as [|c w IH]; intros acc s F; [reflexivity|]. inversion F as [|? ? C F']; subst. cbn [app words_from rev].
  destruct (Ascii.eqb_spec c blank) as [->|_]; [discriminate C|]. rewrite IH by auto. rewrite <- app_assoc. reflexivity.
Qed.
Lemma words_from_last w : forall acc, Forall plain w -> words_from acc w = [rev (rev w ++ acc)].
Proof.
  induction w as [|c w IH]; intros acc F; [reflexivity|]. inversion F as [|? ? C F']; subst. cbn [words_from rev].
  destruct (Ascii.eqb_spec c blank) as [->|_]; [discriminate C|]. rewrite IH by auto. rewrite <- app_assoc. reflexivity.
Qed.
Lemma words_join ws : forall w, Forall (Forall plain) (w :: ws) -> words (w ++ concat (map sp ws)) = w :: ws.
Proof.
  induction ws as [|w1 ws IH]; intros w F; inversion F as [|? ? F1 F2]; subst.
  - cbn [map concat]. rewrite app_nil_r. unfold words. rewrite words_from_last by auto. rewrite app_nil_r, rev_involutive. reflexivity.
  - cbn [map concat]. unfold sp at 1. cbn [app]. unfold words. rewrite words_from_word by auto. rewrite app_nil_r, rev_involutive, IH by auto. reflexivity.
Qed.
Lemma digits_numeral u : digits u = numeral (ulist u).
Proof. induction u; cbn [digits ulist numeral map]; [reflexivity|..]; rewrite IHu; reflexivity. Qed.
Lemma ulist_digits u : is_digits (ulist u).
Proof. induction u; cbn [ulist]; constructor; auto; lia. Qed.
Lemma show_N_decimal n : decimal n (show_N n).
Proof.
  exists (ulist (N.to_uint n)). split; [apply digits_numeral|]. split; [apply ulist_digits|]. split.
  { pose proof (to_uint_not_nil n). destruct (N.to_uint n); try discriminate. congruence. }
  split; [rewrite <- of_uint_value; apply DecimalN.Unsigned.of_to|].
  pose proof (DecimalN.Unsigned.to_of (N.to_uint n)) as E. rewrite DecimalN.Unsigned.of_to in E. rewrite E. clear E.
  unfold Decimal.unorm. intros H. assert (forall u, hd_error (ulist (Decimal.nzhead u)) <> Some 0%N) as NZ by (induction u; cbn [Decimal.nzhead ulist hd_error]; auto; discriminate).
  specialize (NZ (N.to_uint n)). destruct (Decimal.nzhead (N.to_uint n)); try reflexivity; cbn [ulist hd_error] in *; congruence.
Qed.
Lemma show_Z_integer z : integer z (show_Z z).
Proof.
  unfold integer. destruct z as [|p|p]; cbn [Z.ltb Z.compare show_Z Z.abs_N Z.to_N]; try apply show_N_decimal. eexists. split; [reflexivity|apply show_N_decimal].
Qed.
Lemma decimal_ne n w : decimal n w -> w <> [].
Proof. intros (ds & -> & _ & NE & _) E. apply NE. destruct ds; [auto|discriminate]. Qed.

(** ** The nodes of a vtree from left to right *)
Fixpoint vinorder (t : vtree) : list path :=
  match t with
  | Leaf _ => [[]]
  | VNode l r => map (fun p : path => (p ++ [false]) : path) (vinorder l) ++ ([] : path) :: map (fun p : path => (p ++ [true]) : path) (vinorder r)
  end.
Lemma vinorder_length t : List.length (vinorder t) = vsize t.
Proof. induction t; cbn [vinorder vsize]; auto. rewrite app_length. cbn [List.length]. rewrite !map_length, IHt1, IHt2. lia. Qed.
Lemma subtree_app_false l r p : subtree (VNode l r) (p ++ [false]) = subtree l p.
Proof. induction p as [|b p IH]; [reflexivity|]. cbn [app subtree]. rewrite IH. reflexivity. Qed.
Lemma subtree_app_true l r p : subtree (VNode l r) (p ++ [true]) = subtree r p.
Proof. induction p as [|b p IH]; [reflexivity|]. cbn [app subtree]. rewrite IH. reflexivity. Qed.
Lemma subtree_leaf_app v b p : subtree (Leaf v) (p ++ [b]) = None.
Proof. induction p as [|c p IH]; [destruct b; reflexivity|]. cbn [app subtree]. rewrite IH. reflexivity. Qed.
Lemma vpos_inorder t : forall p u, subtree t p = Some u -> nth_error (vinorder t) (vpos t p) = Some p.
Proof.
  unfold vpos. induction t as [v|l IHl r IHr]; intros p u Su.
  - destruct p as [|b p] using rev_ind; [reflexivity|]. rewrite subtree_leaf_app in Su. discriminate Su.
  - destruct p as [|b p] using rev_ind.
    + cbn [rev pos_down vinorder]. rewrite nth_error_app2; rewrite map_length, vinorder_length; [|lia]. rewrite Nat.sub_diag. reflexivity.
    + rewrite rev_app_distr. cbn [rev app]. destruct b; cbn [pos_down vinorder].
      * rewrite subtree_app_true in Su. rewrite nth_error_app2; rewrite map_length, vinorder_length; [|lia].
        replace (vsize l + 1 + pos_down r (rev p) - vsize l) with (S (pos_down r (rev p))) by lia. cbn [nth_error].
        apply (map_nth_error (fun q : path => (q ++ [true]) : path)). eapply IHr; eauto.
      * rewrite subtree_app_false in Su. specialize (IHl _ _ Su). rewrite nth_error_app1.
        -- apply (map_nth_error (fun q : path => (q ++ [false]) : path)). exact IHl.
        -- rewrite map_length. apply nth_error_Some. congruence.
Qed.

(** ** Lines *)
Section Lines.
Context {P : pops}.
Notation heap := (heap P). Notation mgr := (mgr P). Notation node := (node P).
Context (show : P -> text) (show_plain : forall a, Forall plain (show a)) (show_ne : forall a, show a <> []).

(** what the k-th line of a node says, given the nodes in the order of their lines *)
Definition line_says (sroot : vtree) (order : list nat) (k : nat) (nd : node) (l : text) : Prop :=
  exists wk wv rest p, decimal (N.of_nat k) wk /\ decimal (N.of_nat p) wv /\ nth_error (vinorder sroot) p = Some (n_vt nd) /\
  match n_body nd with
  | BLit x => exists w, integer x w /\ words l = [ "L"%char ] :: wk :: wv :: rest /\ rest = [w]
  | BTop v pt pf => exists w, decimal v w /\ words l = [ "T"%char ] :: wk :: wv :: rest /\ rest = [w; show pf; show pt]
  | BDec es => exists w ews, decimal (N.of_nat (List.length es)) w /\ words l = [ "D"%char ] :: wk :: wv :: rest /\ rest = w :: concat ews /\
      Forall2 (fun e ew => exists a b wa wb, a < k /\ b < k /\ nth_error order a = Some (e_prime e) /\ nth_error order b = Some (e_sub e) /\
        decimal (N.of_nat a) wa /\ decimal (N.of_nat b) wb /\ ew = [wa; wb; show (e_param e)]) es ews
  end.
Definition elem_words (ud : udN) (e : elem P) : list text := [show_N (ud (e_prime e)); show_N (ud (e_sub e)); show (e_param e)].
Lemma show_elems_words ud es : concat (map (show_elem show ud) es) = concat (map sp (concat (map (elem_words ud) es))).
Proof.
  induction es as [|e es IH]; [reflexivity|]. cbn [map concat]. rewrite IH. rewrite map_app, concat_app. f_equal. unfold show_elem, elem_words. cbn [map concat]. rewrite app_nil_r. reflexivity.
Qed.
Lemma elem_words_plain ud es : Forall (Forall plain) (concat (map (elem_words ud) es)).
Proof. induction es as [|e es IH]; [constructor|]. cbn [map concat]. apply Forall_app. split; auto. unfold elem_words. repeat constructor; auto; apply show_N_plain. Qed.
End Lines.

Section Format.
Context {P : pops}.
Notation heap := (heap P). Notation mgr := (mgr P). Notation node := (node P).
Context (show : P -> text) (show_plain : forall a, Forall plain (show a)) (show_ne : forall a, show a <> []).

Lemma index_nth i l : In i l -> nth_error l (index_of i l) = Some i.
Proof.
  induction l as [|j l IH]; intros H; [destruct H|]. cbn [index_of]. destruct (Nat.eqb_spec i j) as [->|NE]; [reflexivity|]. cbn [nth_error]. apply IH. destruct H; congruence.
Qed.
Lemma index_nodup i l k : NoDup l -> nth_error l k = Some i -> index_of i l = k.
Proof.
  intros ND. revert k. induction ND as [|j l NI ND IH]; intros [|k] E; try discriminate; cbn [nth_error index_of] in *.
  - injection E as ->. rewrite Nat.eqb_refl. reflexivity.
  - destruct (Nat.eqb_spec i j) as [->|NE]; [apply nth_error_In in E; contradiction|]. rewrite (IH _ E). reflexivity.
Qed.
Lemma subtree_of sroot (hs : heap) i nd : heap_ok sroot hs -> nth_error hs i = Some nd -> exists u, subtree sroot (n_vt nd) = Some u.
Proof.
  intros HO E. pose proof (HO _ _ E) as NO. unfold node_ok in NO. destruct (n_body nd); eauto. destruct NO as (_ & (l & r & E2) & _). eauto.
Qed.
Lemma line_says_spec sroot (hs : heap) root L k i nd : ser_of hs root L -> heap_ok sroot hs -> nth_error (rev L) k = Some i -> nth_error hs i = Some nd ->
  line_says show sroot (rev L) k nd (show_node show sroot (fid L) (fid L i) nd).
Proof.
  intros SO HO Ek E. assert (NoDup (rev L)) as ND by (apply NoDup_rev, (so_nodup _ _ _ SO)).
  assert (fid L i = N.of_nat k) as EK by (unfold fid; rewrite (index_nodup i (rev L) k ND Ek); reflexivity).
  destruct (subtree_of sroot hs i nd HO E) as (u & SU). pose proof (vpos_inorder _ _ _ SU) as VP.
  unfold line_says. rewrite EK. unfold show_node. destruct (n_body nd) as [x|v pt pf|es] eqn:Eb.
  - exists (show_N (N.of_nat k)), (show_N (N.of_nat (vpos sroot (n_vt nd)))), [show_Z x], (vpos sroot (n_vt nd)).
    split; [apply show_N_decimal|]. split; [apply show_N_decimal|]. split; [exact VP|]. exists (show_Z x). split; [apply show_Z_integer|]. split; [|reflexivity].
    rewrite <- (words_join [show_N (N.of_nat k); show_N (N.of_nat (vpos sroot (n_vt nd))); show_Z x] [ "L"%char ]).
    + cbn [map concat]. rewrite app_nil_r. reflexivity.
    + repeat (constructor; [solve [apply show_N_plain|apply show_Z_plain|repeat constructor]|]). constructor.
  - exists (show_N (N.of_nat k)), (show_N (N.of_nat (vpos sroot (n_vt nd)))), [show_N v; show pf; show pt], (vpos sroot (n_vt nd)).
    split; [apply show_N_decimal|]. split; [apply show_N_decimal|]. split; [exact VP|]. exists (show_N v). split; [apply show_N_decimal|]. split; [|reflexivity].
    rewrite <- (words_join [show_N (N.of_nat k); show_N (N.of_nat (vpos sroot (n_vt nd))); show_N v; show pf; show pt] [ "T"%char ]).
    + cbn [map concat]. rewrite app_nil_r. reflexivity.
    + repeat (constructor; [solve [apply show_N_plain|apply show_Z_plain|apply show_plain|repeat constructor]|]). constructor.
  - exists (show_N (N.of_nat k)), (show_N (N.of_nat (vpos sroot (n_vt nd)))), (show_N (N.of_nat (List.length es)) :: concat (map (elem_words show (fid L)) es)), (vpos sroot (n_vt nd)).
    split; [apply show_N_decimal|]. split; [apply show_N_decimal|]. split; [exact VP|]. exists (show_N (N.of_nat (List.length es))), (map (elem_words show (fid L)) es).
    split; [apply show_N_decimal|]. split; [|split; [reflexivity|]].
    + rewrite <- (words_join (show_N (N.of_nat k) :: show_N (N.of_nat (vpos sroot (n_vt nd))) :: show_N (N.of_nat (List.length es)) :: concat (map (elem_words show (fid L)) es)) [ "D"%char ]).
      * cbn [map concat]. rewrite show_elems_words. reflexivity.
      * repeat (constructor; [solve [apply show_N_plain|repeat constructor]|]). apply elem_words_plain; auto.
    + assert (forall c, In c (children nd) -> exists a, a < k /\ nth_error (rev L) a = Some c /\ fid L c = N.of_nat a) as CH.
      { intros c Hc. apply nth_error_split in Ek as (A & B & EA & LA).
        assert (L = rev B ++ i :: rev A) as EL by (rewrite <- (rev_involutive L), EA, rev_app_distr; cbn [rev]; rewrite <- app_assoc; reflexivity).
        pose proof (so_topo _ _ _ SO _ _ _ EL nd c E Hc) as IC. rewrite <- in_rev in IC. apply In_nth_error in IC as (a & Ea).
        assert (a < List.length A) as LT by (apply nth_error_Some; congruence). exists a. assert (nth_error (rev L) a = Some c) as E1 by (rewrite EA, nth_error_app1; auto).
        split; [lia|]. split; auto. unfold fid. rewrite (index_nodup c (rev L) a ND E1). reflexivity. }
      assert (forall e, In e es -> In (e_prime e) (children nd) /\ In (e_sub e) (children nd)) as CC.
      { intros e He. unfold children. rewrite Eb. split; apply in_app_iff; [left|right]; apply in_map; auto. }
      clear - CH CC. induction es as [|e es IH]; [constructor|]. cbn [map]. constructor; [|apply IH; intros; apply CC; right; auto].
      destruct (CC e (or_introl eq_refl)) as [C1 C2]. destruct (CH _ C1) as (a & A1 & A2 & A3). destruct (CH _ C2) as (b & B1 & B2 & B3).
      exists a, b, (show_N (N.of_nat a)), (show_N (N.of_nat b)). split; auto. split; auto. split; auto. split; auto. split; [apply show_N_decimal|]. split; [apply show_N_decimal|].
      unfold elem_words. rewrite A3, B3. reflexivity.
Qed.

Theorem format sroot (hs : heap) ud root : heap_ok sroot hs -> root < List.length hs ->
  exists content ud' comments count node_lines order,
    WritePsddToFile show sroot hs ud root = Ok (content, ud') /\
    content = unlines (comments ++ count :: node_lines) /\ Forall no_nl (comments ++ count :: node_lines) /\
    Forall (fun l => head_char l = "c"%char) comments /\
    (exists w, words count = [str "psdd"; w] /\ decimal (N.of_nat (List.length node_lines)) w) /\
    NoDup order /\ (forall i, In i order <-> reach hs root i) /\ (exists l, order = l ++ [root]) /\
    List.length node_lines = List.length order /\
    (forall k i nd l, nth_error order k = Some i -> nth_error hs i = Some nd -> nth_error node_lines k = Some l -> line_says show sroot order k nd l).
Proof.
  intros HO HR. destruct (serialize_root hs sroot root HO HR) as (L & SO). destruct (write_spec show sroot hs root L SO HO HR ud) as (ud' & E1 & _ & _).
  exists (unlines (header ++ [str "psdd" ++ sp (show_N (N.of_nat (List.length L)))] ++ map (line show sroot hs L) (rev L))), ud', header,
    (str "psdd" ++ sp (show_N (N.of_nat (List.length L)))), (map (line show sroot hs L) (rev L)), (rev L).
  split; [exact E1|]. split; [reflexivity|]. split.
  { apply Forall_app. split; [apply header_nonl|]. constructor; [apply nonl_no, nonl_app; [repeat constructor; discriminate|apply sp_nonl, show_N_plain]|].
    apply Forall_map, Forall_forall. intros i _. unfold line. destruct (nth_error hs i); [apply nonl_no, show_node_nonl; auto|intros []]. }
  split; [repeat constructor|]. split.
  { exists (show_N (N.of_nat (List.length L))). rewrite map_length, rev_length. split; [|apply show_N_decimal].
    transitivity (words (str "psdd" ++ concat (map sp [show_N (N.of_nat (List.length L))]))); [cbn [map concat]; rewrite app_nil_r; reflexivity|]. apply words_join.
    constructor; [repeat constructor|]. constructor; [apply show_N_plain|constructor]. }
  split; [apply NoDup_rev, (so_nodup _ _ _ SO)|]. split; [intros i; rewrite <- in_rev; apply (so_in _ _ _ SO)|].
  split. { destruct (so_head _ _ _ SO) as (l & ->). exists (rev l). reflexivity. }
  split; [apply map_length|].
  intros k i nd l Ek E El. rewrite (map_nth_error _ _ _ Ek) in El. injection El as <-. unfold line. rewrite E. eapply line_says_spec; eauto.
Qed.

(** ** What the file describes *)
Lemma reach_has_rep (vl : P -> R) (hs : heap) i j : reach hs i j -> forall t, Rep vl hs i t -> exists t', Rep vl hs j t'.
Proof.
  induction 1 as [i|i nd c j E Hc R IH]; intros t Rt; [eauto|].
  inversion Rt as [? nd' l Ei Eb|? nd' v pt pf Ei Eb|? nd' es tes Ei Eb FE]; subst; rewrite E in Ei; injection Ei as <-; unfold children in Hc; rewrite Eb in Hc; try destruct Hc.
  assert (exists tc, Rep vl hs c tc) as (tc & Rc); [|eauto]. clear - Hc FE. induction FE as [|e te es tes (R1 & R2 & R3) FE IH]; [destruct Hc|]. cbn [map app] in Hc.
  destruct Hc as [<-|Hc]; [eauto|]. apply in_app_iff in Hc as [Hc|[<-|Hc]]; eauto; apply IH; apply in_app_iff; auto.
Qed.
Context (val : P -> R) (rd : text -> option P) (rnd : P -> P).
Notation vr := (vr val rnd).
Lemma field_N lo hi n rest : (lo <= 0)%Z -> (Z.of_N n <= hi)%Z -> starts_blank rest -> int_field lo hi (sp (show_N n) ++ rest) (Z.of_N n) rest.
Proof.
  intros HL HH HB. destruct (show_N_decimal n) as (ds & E & D & NE & V & _). exists [blank], Unsigned, ds. rewrite E. split; [reflexivity|]. split; [repeat constructor|].
  split; [auto|]. split; [auto|]. split; [apply starts_blank_nodig; auto|]. split; [cbn [signed]; congruence|lia].
Qed.
Lemma field_N_end lo hi n : (lo <= 0)%Z -> (Z.of_N n <= hi)%Z -> int_field lo hi (sp (show_N n)) (Z.of_N n) [].
Proof. intros HL HH. rewrite <- (app_nil_r (sp (show_N n))). apply field_N; auto. exact Logic.I. Qed.
Lemma field_Z lo hi z : (lo <= z <= hi)%Z -> int_field lo hi (sp (show_Z z)) z [].
Proof.
  intros H. pose proof (show_Z_integer z) as I. unfold integer in I. destruct (Z.ltb_spec z 0).
  - destruct I as (w & E & ds & -> & D & NE & V & _). exists [blank], Minus, ds. rewrite E, app_nil_r. split; [reflexivity|]. split; [repeat constructor|].
    split; [auto|]. split; [auto|]. split; [exact Logic.I|]. split; [cbn [signed]; rewrite V; lia|lia].
  - destruct I as (ds & E & D & NE & V & _). exists [blank], Unsigned, ds. rewrite E, app_nil_r. split; [reflexivity|]. split; [repeat constructor|].
    split; [auto|]. split; [auto|]. split; [exact Logic.I|]. split; [cbn [signed]; rewrite V; lia|lia].
Qed.
Lemma field_word a rest : rd (show a) = Some (rnd a) -> starts_blank rest -> word_field rd (sp (show a) ++ rest) (rnd a) rest.
Proof. intros E H. exists [blank], (show a). split; [reflexivity|]. split; [repeat constructor|]. auto. Qed.
Lemma field_word_end a : rd (show a) = Some (rnd a) -> word_field rd (sp (show a)) (rnd a) [].
Proof. intros E. rewrite <- (app_nil_r (sp (show a))). apply field_word; auto. exact Logic.I. Qed.

Lemma file_means_snoc root its : forall e e1 it e2, file_means val root e its e1 -> item_means val root e1 it e2 -> file_means val root e (its ++ [it]) e2.
Proof.
  induction its as [|i its IH]; intros e e1 it e2 F M; inversion F; subst; cbn [app]; [econstructor; [exact M|constructor]|].
  econstructor; eauto.
Qed.
Theorem describes sroot (hs : heap) ud root q0 t : heap_ok sroot hs -> root < List.length hs -> fits sroot hs ->
  (Z.of_nat (List.length hs) <= 4294967295)%Z ->
  (forall i nd a, reach hs root i -> nth_error hs i = Some nd -> In a (params nd) -> rd (show a) = Some (rnd a)) ->
  vt_of hs root = Some q0 -> Rep vr hs root t ->
  exists content ud' cs n its k e, WritePsddToFile show sroot hs ud root = Ok (content, ud') /\
    Forall2 (spells rd) (lines content) (cs ++ Count n :: its) /\ Forall (eq Comment) cs /\ n = Z.of_nat (List.length its) /\
    file_means val sroot [] its ((k, (q0, t)) :: e).
Proof.
  intros HO HR FT FT32 RD Hq Rt. destruct (serialize_root hs sroot root HO HR) as (L & SO). destruct (write_spec show sroot hs root L SO HO HR ud) as (ud' & E1 & _ & _).
  set (item_of := fun i => match nth_error hs i with
    | Some nd => match n_body nd with
      | BLit l => ILit (Z.of_N (fid L i)) l
      | BTop v pt pf => ITop (Z.of_N (fid L i)) v (rnd pf) (rnd pt)
      | BDec es => IDec (Z.of_N (fid L i)) (map (fun e => (Z.of_N (fid L (e_prime e)), Z.of_N (fid L (e_sub e)), rnd (e_param e))) es)
      end
    | None => Comment end).
  assert (forall i, In i L -> exists nd, nth_error hs i = Some nd) as LK.
  { intros i Hi. destruct (nth_error hs i) eqn:E; eauto. apply nth_error_None in E. apply (so_in _ _ _ SO) in Hi. pose proof (reach_le _ _ _ _ HO Hi). lia. }
  assert (List.length L <= List.length hs) as LL by (eapply L_len; eauto).
  assert (forall c, In c L -> (Z.of_N (fid L c) <= 18446744073709551615)%Z) as FF by (intros; eapply fid_fits; eauto).
  assert (forall i, (Z.of_nat (vpos sroot i) <= 2147483647)%Z) as VV by (intros i; pose proof (vpos_lt sroot i); pose proof (fit_vtree _ _ FT); lia).
  assert (forall i, In i L -> spells rd (line show sroot hs L i) (item_of i)) as SPL.
  { intros i Hi. destruct (LK i Hi) as (nd & E). unfold line, item_of. rewrite E. pose proof (HO _ _ E) as NO. unfold node_ok in NO. unfold show_node.
    assert (forall a, In a (params nd) -> rd (show a) = Some (rnd a)) as RDi by (intros a Ha; eapply RD; eauto; apply (so_in _ _ _ SO); auto).
    pose proof (FF i Hi) as FI. pose proof (VV (n_vt nd)) as Vi.
    destruct (n_body nd) as [x|v pt pf|es] eqn:Eb.
    - assert (Z.abs x <= 2147483647)%Z as XF.
      { assert (In (lit_var x) (leaves sroot)) as IV by (apply (HeapProofs.subtree_leaves _ _ _ _ NO); left; auto). pose proof (fit_vars _ _ FT _ IV). unfold lit_var in *. lia. }
      eapply sp_lit; [apply field_N; [lia|exact FI|reflexivity]|apply field_N; [lia|lia|reflexivity]|apply field_Z; lia].
    - assert (In v (leaves sroot)) as IV by (apply (HeapProofs.subtree_leaves _ _ _ _ NO); left; auto). pose proof (fit_vars _ _ FT _ IV).
      eapply sp_top; [apply field_N; [lia|exact FI|reflexivity]|apply field_N; [lia|lia|reflexivity]|apply field_N; [lia|lia|reflexivity]| |].
      + apply field_word; [apply RDi; unfold params; rewrite Eb; simpl; auto|reflexivity].
      + apply field_word_end. apply RDi; unfold params; rewrite Eb; simpl; auto.
    - pose proof (fit_elems _ _ FT _ _ _ E Eb) as FE.
      eapply sp_dec; [apply field_N; [lia|exact FI|reflexivity]|apply field_N; [lia|lia|reflexivity]| |].
      + rewrite map_length. rewrite <- (nat_N_Z (List.length es)). apply field_N; [lia|lia|apply show_elems_starts].
      + assert (forall e, In e es -> rd (show (e_param e)) = Some (rnd (e_param e))) as RDe by (intros e He; apply RDi; unfold params; rewrite Eb; apply in_map; auto).
        assert (forall e, In e es -> In (e_prime e) L /\ In (e_sub e) L) as CL.
        { intros e He. split; apply (so_in _ _ _ SO); apply (so_in _ _ _ SO) in Hi; eapply reach_snoc; eauto; unfold children; rewrite Eb; apply in_app_iff; [left|right]; apply in_map; auto. }
        clear - FF CL RDe show_plain show_ne. induction es as [|e es IH]; [constructor|]. destruct (CL e (or_introl eq_refl)). cbn [map concat]. unfold show_elem at 1. rewrite <- !app_assoc.
        eapply et_cons; [apply field_N; [lia|auto|reflexivity]|apply field_N; [lia|auto|reflexivity]|apply field_word; [apply RDe; left; auto|apply show_elems_starts]|].
        apply IH; intros; [apply RDe|apply CL]; right; auto. }
  assert (forall L1 L2, L = L1 ++ L2 -> exists e, file_means val sroot [] (map item_of (rev L2)) e /\
     Forall2 (fun i x => fst x = Z.of_N (fid L i) /\ vt_of hs i = Some (fst (snd x)) /\ Rep vr hs i (snd (snd x))) L2 e) as FM.
  { intros L1 L2. revert L1. induction L2 as [|i L2 IH]; intros L1 EL; [exists []; split; constructor|].
    destruct (IH (L1 ++ [i])) as (e & M & F). { rewrite EL, <- app_assoc. reflexivity. }
    assert (In i L) as Hi by (rewrite EL; apply in_elt). destruct (LK i Hi) as (nd & E). pose proof (HO _ _ E) as NO. unfold node_ok in NO.
    destruct (reach_has_rep vr hs root i ltac:(apply (so_in _ _ _ SO); auto) t Rt) as (ti & Ri).
    assert (forall c p, In c L2 -> vt_of hs c = Some p -> exists tc, Zlookup (Z.of_N (fid L c)) e = Some (p, tc) /\ Rep vr hs c tc) as LKP.
    { assert (forall c, In c L2 -> In c L) as SUB by (intros; rewrite EL; apply in_app_iff; right; right; auto).
      clear - F SUB HR. intros c p. induction F as [|j [kj [pj tj]] L2 e (A & B & C) F IHF]; intros Hc Hp; [destruct Hc|]. cbn [fst snd] in *. unfold Zlookup in *. cbn [alookup].
      destruct (Z.eqb_spec (Z.of_N (fid L c)) kj) as [Q|Q].
      - assert (c = j) as -> by (apply (fid_inj hs root L HR); [apply SUB; auto|apply SUB; left; auto|lia]). rewrite Hp in B. injection B as ->. eauto.
      - destruct Hc as [->|Hc]; [congruence|]. apply IHF; auto. intros; apply SUB; right; auto. }
    exists ((Z.of_N (fid L i), (n_vt nd, ti)) :: e). split.
    - cbn [rev]. rewrite map_app. eapply file_means_snoc; [exact M|]. cbn [map]. unfold item_of. rewrite E.
      revert EL; inversion Ri as [? nd' l Ei Eb|? nd' v pt pf Ei Eb|? nd' es tes Ei Eb FE]; subst; intros EL; rewrite E in Ei; injection Ei as <-; rewrite Eb in *.
      + apply im_lit. exact NO.
      + exact (im_top val sroot e (Z.of_N (fid L i)) v (rnd pf) (rnd pt) (n_vt nd) NO).
      + destruct NO as (NE & (l & r & SV) & FO). eapply im_dec; [exact SV|destruct es; [congruence|discriminate]|].
        assert (forall e0, In e0 es -> In (e_prime e0) L2 /\ In (e_sub e0) L2) as CH.
        { intros e0 He. split; apply (so_topo _ _ _ SO L1 i L2 EL _ _ E); unfold children; rewrite Eb; apply in_app_iff; [left|right]; apply in_map; auto. }
        clear - FE FO CH LKP. induction FE as [|e0 te es tes (R1 & R2 & R3) FE IHE]; [constructor|]. inversion FO as [|? ? (_ & _ & V1 & V2) FO']; subst.
        destruct (CH e0 (or_introl eq_refl)) as [C1 C2]. destruct (LKP _ _ C1 V1) as (t1 & K1 & Q1). destruct (LKP _ _ C2 V2) as (t2 & K2 & Q2).
        cbn [map]. constructor; [|apply IHE; auto; intros; apply CH; right; auto]. cbn [fst snd].
        rewrite (Rep_fun vr _ _ _ _ R1 Q1), (Rep_fun vr _ _ _ _ R2 Q2). split; auto.
    - constructor; auto. cbn [fst snd]. split; auto. split; auto. unfold vt_of. rewrite E. reflexivity. }
  destruct (FM [] L eq_refl) as (e & M & F). destruct (so_head _ _ _ SO) as (l & EL). 
  assert (exists k e', e = (k, (q0, t)) :: e') as (k & e' & ->).
  { rewrite EL in F. inversion F as [|? [k [p t']] ? e' (A & B & C) F']. cbn [fst snd] in *. exists k, e'. rewrite Hq in B. injection B as <-. rewrite (Rep_fun vr _ _ _ _ Rt C). reflexivity. }
  exists (unlines (header ++ [str "psdd" ++ sp (show_N (N.of_nat (List.length L)))] ++ map (line show sroot hs L) (rev L))), ud',
    (map (fun _ => Comment) header), (Z.of_nat (List.length L)), (map item_of (rev L)), k, e'.
  split; [exact E1|]. split; [|split; [repeat constructor|split; [rewrite map_length, rev_length; reflexivity|exact M]]].
  rewrite lines_unlines.
  2:{ apply Forall_app. split; [apply header_nonl|]. constructor; [apply nonl_no, nonl_app; [repeat constructor; discriminate|apply sp_nonl, show_N_plain]|].
    apply Forall_map, Forall_forall. intros i _. unfold line. destruct (nth_error hs i); [apply nonl_no, show_node_nonl; auto|intros []]. }
  apply Forall2_app; [repeat constructor|]. cbn [app]. constructor.
  { change (str "psdd" ++ sp (show_N (N.of_nat (List.length L)))) with ("p"%char :: "s"%char :: "d"%char :: "d"%char :: blank :: show_N (N.of_nat (List.length L))).
    destruct (show_N_decimal (N.of_nat (List.length L))) as (ds & -> & D & NE & V & _). eapply sp_count. exists [], Unsigned, ds. cbn [sign_text app].
    split; [rewrite app_nil_r; reflexivity|]. split; [constructor|]. split; [auto|]. split; [auto|]. split; [exact Logic.I|]. split; [cbn [signed]; rewrite V; lia|lia]. }
  assert (Forall (fun i => In i L) (rev L)) as FL by (apply Forall_forall; intros i; rewrite <- in_rev; auto).
  clear - FL SPL. induction (rev L) as [|i l IH]; [constructor|]. inversion FL; subst. cbn [map]. constructor; auto.
Qed.
End Format.

(** ** The text of a parameter *)
Lemma value_snoc ds d : value (ds ++ [d]) = (10 * value ds + d)%N.
Proof. unfold value. rewrite fold_left_app. reflexivity. Qed.
Lemma pad_numeral k : forall n, exists B, pad k n = numeral B /\ is_digits B /\ List.length B = k /\ forall A, value (A ++ B) = (value A * 10 ^ N.of_nat k + n mod 10 ^ N.of_nat k)%N.
Proof.
  induction k as [|k IH]; intros n.
  - exists []. split; [reflexivity|]. split; [constructor|]. split; [reflexivity|]. intros A. rewrite app_nil_r. change (10 ^ N.of_nat 0)%N with 1%N. rewrite N.mod_1_r. lia.
  - destruct (IH (n / 10)%N) as (B & E & D & LB & V). exists (B ++ [(n mod 10)%N]). cbn [pad]. rewrite E. unfold numeral. rewrite map_app. split; [reflexivity|].
    assert (n mod 10 < 10)%N as M by (apply N.mod_upper_bound; lia).
    split; [apply Forall_app; split; [exact D|constructor; [exact M|constructor]]|]. split; [rewrite app_length; simpl; lia|].
    intros A. rewrite app_assoc, value_snoc, V. rewrite Nat2N.inj_succ, N.pow_succ_r'.
    assert (10 ^ N.of_nat k <> 0)%N by (apply N.pow_nonzero; lia). rewrite (N.mod_mul_r n 10 (10 ^ N.of_nat k)) by lia. lia.
Qed.
Theorem fixed6_format r : exists sg A B, fixed6 r = sign_text sg ++ numeral A ++ "."%char :: numeral B /\ is_digits A /\ is_digits B /\ A <> [] /\
  (hd_error A = Some 0%N -> A = [0%N]) /\ List.length B = 6 /\ (sg = Minus <-> (r < 0)%R) /\ sg <> Plus /\
  (Rabs (IZR (signed sg (value (A ++ B))) / 1000000 - r) <= / 2000000)%R.
Proof.
  unfold fixed6. pose proof (rnd6_close r) as C. unfold rnd6 in C.
  assert (0 <= nearest (Rabs r * 1000000))%Z as Hz by (apply nearest_nonneg; pose proof (Rabs_pos r); nra).
  set (zz := nearest (Rabs r * 1000000)) in *. set (z := Z.to_N zz). cbv zeta.
  destruct (show_N_decimal (z / 1000000)%N) as (A & EA & DA & NA & VA & HA). destruct (pad_numeral 6 (z mod 1000000)%N) as (B & EB & DB & LB & VB).
  assert (value (A ++ B) = z) as V.
  { rewrite VB, VA. change (10 ^ N.of_nat 6)%N with 1000000%N. rewrite N.mod_mod by lia. pose proof (N.div_mod z 1000000 ltac:(lia)). lia. }
  exists (if Rlt_dec r 0 then Minus else Unsigned), A, B. rewrite V, EA, EB.
  assert (Z.of_N z = zz) as EZ by (unfold z; apply Z2N.id; auto).
  destruct (Rlt_dec r 0) as [N|N]; cbn [sign_text signed]; rewrite EZ; (split; [reflexivity|]); do 5 (split; [auto|]); (split; [split; [intros; congruence || auto|intros; auto; contradiction]|]); (split; [discriminate|]).
  - rewrite opp_IZR. replace (- IZR zz / 1000000 - r)%R with (- (IZR zz / 1000000) - r)%R by lra. exact C.
  - exact C.
Qed.

(** ** A reader that takes "-inf" for the logarithm of zero *)
Definition rd_inf (s : text) : option Lexact := if list_eq_dec ascii_dec s (str "-inf") then Some lz else rd_log s.
Lemma rd_inf_show (a : Lexact) : rd_inf (show_log a) = Some (rnd_log a).
Proof.
  unfold rd_inf. destruct a as [|r].
  - destruct (list_eq_dec ascii_dec (show_log lz) (str "-inf")) as [_|NE]; [reflexivity|]. exfalso. apply NE. reflexivity.
  - destruct (list_eq_dec ascii_dec (show_log (lf r)) (str "-inf")) as [E|_]; [|apply rd_show_log].
    exfalso. pose proof (rd_show_log r) as H. rewrite E in H. change (str "-inf") with (show_log lz) in H. rewrite rd_show_zero in H. discriminate.
Qed.
Lemma near_rnd_all (a : lnum) : near (/ 2000000) (lval a) (lval (rnd_log a)).
Proof. destruct a; [unfold near; cbn [lval rnd_log]; lra|apply near_rnd]. Qed.
Lemma rep_close_all (hs : heap Lexact) : forall t i tr, @Rep Lexact lval hs i t -> @Rep Lexact (@vr Lexact lval rnd_log) hs i tr -> close t tr.
Proof.
  induction t as [z|v a b|es IH] using ptree_ind2; intros i tr H1 H2.
  - apply Rep_lit_inv in H1 as (nd & E & Eb). inversion H2; subst; assert (nd0 = nd) by congruence; subst; rewrite Eb in *; try discriminate.
    match goal with H : BLit _ = BLit _ |- _ => injection H as -> end. constructor.
  - apply Rep_top_inv in H1 as (nd & pt & pf & E & Eb & -> & ->). inversion H2; subst; assert (nd0 = nd) by congruence; subst; rewrite Eb in *; try discriminate.
    match goal with H : BTop _ _ _ = BTop _ _ _ |- _ => injection H as -> -> -> end. constructor; try apply lval_nonneg; apply near_rnd_all.
  - apply Rep_dec_inv in H1 as (nd & els & E & Eb & F). inversion H2 as [? nd' ? E' Eb'|? nd' ? ? ? E' Eb'|? nd' els' tes' E' Eb' F']; subst; assert (nd' = nd) by congruence; subst; rewrite Eb in *; try discriminate.
    injection Eb' as <-. constructor. clear E Eb E' H2.
    revert tes' F'. induction F as [|e te els tes (A & B & C) F IHF]; intros tes' F'; inversion F' as [|? te' ? tes'' (A' & B' & C') F'']; subst; constructor.
    + inversion IH as [|? ? [I1 I2] I3]; subst. split; [exact (I1 _ _ A A')|]. split; [exact (I2 _ _ B B')|]. rewrite C, C'. split; [apply lval_nonneg|apply near_rnd_all].
    + inversion IH; subst. apply IHF; auto.
Qed.
Theorem other_reader sroot (hs : heap Lexact) ud root q0 s t : heap_ok sroot hs -> fits sroot hs -> (Z.of_nat (List.length hs) <= 4294967295)%Z ->
  vt_of hs root = Some q0 -> subtree sroot q0 = Some s -> @Rep Lexact lval hs root t ->
  exists content ud' cs n its k t' e, @WritePsddToFile Lexact show_log sroot hs ud root = Ok (content, ud') /\
    Forall2 (@spells Lexact rd_inf) (lines content) (cs ++ Count n :: its) /\ Forall (eq Comment) cs /\ n = Z.of_nat (List.length its) /\
    @file_means Lexact lval sroot [] its ((k, (q0, t')) :: e) /\
    (forall x, base t' x = base t x) /\ (forall x, near (INR (vsize s) / 2000000) (weight t x) (weight t' x)) /\ (deterministic t -> deterministic t').
Proof.
  intros HO FT F32 Hq Hs Rt. pose proof (vt_of_lt _ _ _ Hq) as HR. destruct (@Rep_exists Lexact (@vr Lexact lval rnd_log) sroot hs HO root HR) as [tr Rtr].
  destruct (@describes Lexact show_log (fun a => show_xr_plain (lx a)) (fun a => show_xr_ne (lx a)) lval rd_inf rnd_log sroot hs ud root q0 tr HO HR FT F32) as (content & ud' & cs & n & its & k & e & H1 & H2 & H3 & H4 & H5); auto.
  { intros i nd a _ _ _. apply rd_inf_show. }
  exists content, ud', cs, n, its, k, tr, e. do 5 (split; [auto|]). pose proof (rep_close_all hs t root tr Rt Rtr) as CL.
  split; [intros x; apply close_base; auto|]. split; [|intros D; eapply close_det; eauto].
  intros x. eapply close_near; [|exact CL]. exact (@Rep_conforms Lexact lval sroot hs HO t root q0 s Rt Hq Hs).
Qed.

(** ** The texts determine the numbers *)
Lemma digit_char_inj d d' : (d < 10)%N -> (d' < 10)%N -> digit_char d = digit_char d' -> d = d'.
Proof. intros H H' E. ten d K; ten d' K'; solve [reflexivity | discriminate E]. Qed.
Lemma numeral_inj a : forall b, is_digits a -> is_digits b -> numeral a = numeral b -> a = b.
Proof.
  induction a as [|d a IH]; intros [|d' b] A B E; try discriminate; auto. cbn [numeral map] in E. injection E as E1 E2. inversion A; subst. inversion B; subst.
  f_equal; [apply digit_char_inj; auto|apply IH; auto].
Qed.
Lemma decimal_inj n n' w : decimal n w -> decimal n' w -> n = n'.
Proof. intros (a & -> & A & _ & <- & _) (b & E & B & _ & <- & _). f_equal. apply numeral_inj; auto. Qed.
Lemma decimal_head n w : decimal n ("-"%char :: w) -> False.
Proof. intros (ds & E & D & _). destruct ds as [|d ds]; [discriminate|]. cbn [numeral map] in E. injection E as E _. inversion D as [|? ? L _]; subst. ten d K; discriminate E. Qed.
Lemma vinorder_spec t : NoDup (vinorder t) /\ forall p, In p (vinorder t) <-> exists u, subtree t p = Some u.
Proof.
  assert (forall t p, In p (vinorder t) <-> exists u, subtree t p = Some u) as IN.
  { clear t. intros t p. split; [|intros (u & E); eapply nth_error_In; eapply vpos_inorder; eauto].
    revert p. induction t as [v|l IHl r IHr]; intros p H; cbn [vinorder] in H.
    - destruct H as [<-|[]]. eexists. reflexivity.
    - apply in_app_iff in H as [H|[<-|H]]; [|eexists; reflexivity|]; apply in_map_iff in H as (q & <- & H); [rewrite subtree_app_false|rewrite subtree_app_true]; auto. }
  split; [|apply IN]. clear IN. assert (forall (b : bool) (l : list path), NoDup l -> NoDup (map (fun p : path => (p ++ [b]) : path) l)) as ND.
  { intros b l H. apply FinFun.Injective_map_NoDup; auto. intros x y E. apply app_inj_tail in E. tauto. }
  induction t as [v|l IHl r IHr]; cbn [vinorder]; [repeat constructor; intros []|].
  apply NoDup_app_intro; [apply ND; auto| |].
  - constructor; [|apply ND; auto]. intros H. apply in_map_iff in H as (q & E & _). destruct q; discriminate E.
  - intros x H. apply in_map_iff in H as (q & <- & _). intros [E|H]; [destruct q; discriminate E|]. apply in_map_iff in H as (q' & E & _). apply app_inj_tail in E as [_ E]. discriminate.
Qed.
Theorem unambiguous : (forall n n' w, decimal n w -> decimal n' w -> n = n') /\ (forall z z' w, integer z w -> integer z' w -> z = z') /\
  (forall t, NoDup (vinorder t) /\ forall p, In p (vinorder t) <-> exists u, subtree t p = Some u).
Proof.
  split; [exact decimal_inj|]. split; [|exact vinorder_spec]. unfold integer. intros z z' w H H'.
  destruct (Z.ltb_spec z 0), (Z.ltb_spec z' 0).
  - destruct H as (a & -> & A), H' as (b & E & B). injection E as <-. pose proof (decimal_inj _ _ _ A B). lia.
  - destruct H as (a & -> & A). destruct (decimal_head _ _ H').
  - destruct H' as (a & -> & A). destruct (decimal_head _ _ H).
  - pose proof (decimal_inj _ _ _ H H'). lia.
Qed.
