(** Proofs about what psdd_inference prints and about the command line of uai_compiler. *)
From Coq Require Import Ascii String Reals Lra.
From Verif Require Import Base Param ParamProofs Vtree VtreeProofs Spec SpecProofs Heap Manager HeapProofs Query Text IO IOProofs Csv Sdd Cnf CnfProofs InferProofs
  Pgm PgmLayout PgmProofs PgmNet Uai UaiProofs VtreeGen VtreeGenProofs JointreeProofs HyperProofs Compiler CompilerProofs Kahypar FixedProofs Args ArgsProofs.
Local Open Scope nat_scope.

(** ** The output can be read back.  [quiet s]: the text contains none of the separators *)
Definition quiet (s : text) : Prop := forall c, In c s -> c <> nl /\ c <> ","%char /\ c <> "|"%char.
Lemma split_sep c (s1 s2 r1 r2 : text) : ~ In c s1 -> ~ In c s2 -> s1 ++ c :: r1 = s2 ++ c :: r2 -> s1 = s2 /\ r1 = r2.
Proof.
  revert s2. induction s1 as [|a s1 IH]; intros [|b s2] H1 H2 E; simpl in *.
  - injection E as E. auto.
  - injection E as -> E. exfalso. auto.
  - injection E as -> E. exfalso. auto.
  - injection E as -> E. destruct (IH s2) as [-> ->]; auto.
Qed.
Lemma digits_chars u c : In c (digits u) -> exists k, c = ascii_of_N (48 + k) /\ (k < 10)%N.
Proof.
  assert (forall k, (k < 10)%N -> exists k', ascii_of_N (48 + k) = ascii_of_N (48 + k') /\ (k' < 10)%N) as H by eauto.
  induction u as [|u IH|u IH|u IH|u IH|u IH|u IH|u IH|u IH|u IH|u IH]; simpl; [tauto|..]; (intros [<-|HI]; [|auto]).
  - exists 0%N; split; [reflexivity|lia].
  - exists 1%N; split; [reflexivity|lia].
  - exists 2%N; split; [reflexivity|lia].
  - exists 3%N; split; [reflexivity|lia].
  - exists 4%N; split; [reflexivity|lia].
  - exists 5%N; split; [reflexivity|lia].
  - exists 6%N; split; [reflexivity|lia].
  - exists 7%N; split; [reflexivity|lia].
  - exists 8%N; split; [reflexivity|lia].
  - exists 9%N; split; [reflexivity|lia].
Qed.
Lemma show_N_chars n c : In c (show_N n) -> c <> nl /\ c <> ":"%char.
Proof.
  intros H. apply digits_chars in H as (k & -> & L).
  assert (In k [0; 1; 2; 3; 4; 5; 6; 7; 8; 9]%N) as I by (simpl; lia).
  simpl in I. repeat destruct I as [<-|I]; try (split; discriminate). destruct I.
Qed.
Lemma show_N_inj a b : show_N a = show_N b -> a = b.
Proof. intros E. pose proof (dec_of_show a) as H. rewrite E, dec_of_show in H. congruence. Qed.
Section Print.
Context {P : pops} (showd : P -> text).
(** The answer with the numbers as they are printed *)
Inductive printed := PUnsat | PAnswer (mpe : option (list (N * bool) * text)) (mar : option (list (N * (text * text)))).
Definition as_printed (a : @answer P) : printed :=
  match a with
  | Unsatisfied => PUnsat
  | Answer mpe mar => PAnswer (option_map (fun x => (fst x, showd (snd x))) mpe)
      (option_map (map (fun e => (fst e, (showd (fst (snd e)), showd (snd (snd e)))))) mar)
  end.
Hypothesis Q : forall p, quiet (showd p).
Lemma nin_sep p c : c = nl \/ c = ","%char \/ c = "|"%char -> ~ In c (showd p).
Proof. intros H I. destruct (Q p c I) as (A & B & C). intuition. Qed.
Lemma nin_colon n : ~ In ":"%char (show_N n).
Proof. intros I. apply show_N_chars in I as [_ H]. congruence. Qed.
Lemma head_not_nl n r s : show_N n ++ r = nl :: s -> False.
Proof.
  destruct (show_N_head n) as (c & d & E & _). rewrite E. simpl. intros H. injection H as -> _.
  assert (In nl (show_N n)) as I by (rewrite E; left; reflexivity). apply show_N_chars in I as [I _]. congruence.
Qed.
Lemma bits_read l1 l2 r1 r2 :
  concat (map (fun e : N * bool => show_N (fst e) ++ str ":" ++ show_bit (snd e) ++ str ",") l1) ++ nl :: r1 =
  concat (map (fun e : N * bool => show_N (fst e) ++ str ":" ++ show_bit (snd e) ++ str ",") l2) ++ nl :: r2 -> l1 = l2 /\ r1 = r2.
Proof.
  revert l2. induction l1 as [|[v b] l1 IH]; intros [|[w d] l2]; cbn [map concat fst snd].
  - simpl. intros E. injection E as E. auto.
  - rewrite <- (app_assoc (show_N w ++ _)), <- (app_assoc (show_N w)). intros E. symmetry in E. apply head_not_nl in E. destruct E.
  - rewrite <- (app_assoc (show_N v ++ _)), <- (app_assoc (show_N v)). intros E. apply head_not_nl in E. destruct E.
  - rewrite <- (app_assoc (show_N v ++ _)), <- (app_assoc (show_N v)), <- (app_assoc (show_N w ++ _)), <- (app_assoc (show_N w)).
    intros E. apply split_sep in E as [E1 E2]; try apply nin_colon. apply show_N_inj in E1 as ->.
    destruct b, d; simpl in E2; try discriminate; injection E2 as E2; apply IH in E2 as [-> ->]; auto.
Qed.
Lemma mars_read l1 l2 r1 r2 :
  concat (map (fun e : N * (P * P) => show_N (fst e) ++ str ":" ++ showd (fst (snd e)) ++ str "|" ++ showd (snd (snd e)) ++ str ",") l1) ++ nl :: r1 =
  concat (map (fun e : N * (P * P) => show_N (fst e) ++ str ":" ++ showd (fst (snd e)) ++ str "|" ++ showd (snd (snd e)) ++ str ",") l2) ++ nl :: r2 ->
  map (fun e => (fst e, (showd (fst (snd e)), showd (snd (snd e))))) l1 = map (fun e => (fst e, (showd (fst (snd e)), showd (snd (snd e))))) l2 /\ r1 = r2.
Proof.
  assert (forall v a b (r s : text), ((show_N v ++ str ":" ++ showd a ++ str "|" ++ showd b ++ str ",") ++ r) ++ s =
    show_N v ++ ":"%char :: (showd a ++ "|"%char :: (showd b ++ ","%char :: (r ++ s)))) as SH.
  { intros. rewrite <- !app_assoc. reflexivity. }
  revert l2. induction l1 as [|[v [a b]] l1 IH]; intros [|[w [c d]] l2]; cbn [map concat fst snd].
  - simpl. intros E. injection E as E. auto.
  - rewrite SH. intros E. symmetry in E. apply head_not_nl in E. destruct E.
  - rewrite SH. intros E. apply head_not_nl in E. destruct E.
  - rewrite !SH. intros E. apply split_sep in E as [E1 E2]; try apply nin_colon. apply show_N_inj in E1 as ->.
    apply split_sep in E2 as [E2 E3]; try (apply nin_sep; auto).
    apply split_sep in E3 as [E3 E4]; try (apply nin_sep; auto). apply IH in E4 as [-> ->]. rewrite E2, E3. auto.
Qed.
Theorem print_inj a b : print_answer showd a = print_answer showd b -> as_printed a = as_printed b.
Proof.
  assert (forall x y r1 r2, print_mpe showd x ++ r1 = print_mpe showd y ++ r2 -> fst x = fst y /\ showd (snd x) = showd (snd y) /\ r1 = r2) as MP.
  { intros [l1 p1] [l2 p2] r1 r2. unfold print_mpe. cbn [fst snd]. rewrite <- !app_assoc. intros E. apply app_inv_head in E. apply bits_read in E as [-> E].
    apply app_inv_head in E. apply split_sep in E as [E1 E2]; try (apply nin_sep; auto). auto. }
  assert (forall x y, print_mar showd x = print_mar showd y ->
    map (fun e => (fst e, (showd (fst (snd e)), showd (snd (snd e))))) x = map (fun e => (fst e, (showd (fst (snd e)), showd (snd (snd e))))) y) as MR.
  { intros l1 l2. unfold print_mar. intros E. apply app_inv_head in E. apply mars_read in E as [-> E]. auto. }
  destruct a as [|[x|] [y|]], b as [|[x'|] [y'|]]; cbn [print_answer as_printed option_map]; try (intros E; exfalso; simpl in E; discriminate E); intros E; auto.
  - apply MP in E as (-> & -> & E). apply MR in E as ->. auto.
  - exfalso. apply MP in E as (_ & _ & E). discriminate E.
  - exfalso. apply MP in E as (_ & _ & E). discriminate E.
  - apply MP in E as (-> & -> & _). auto.
  - apply MR in E as ->. auto.
Qed.
End Print.

(** ** uai_compiler *)
Lemma put_same fs n c : put fs n c n = Some c.
Proof. unfold put. destruct (text_dec n n); congruence. Qed.
Lemma put_other fs n c n' : n' <> n -> put fs n c n' = fs n'.
Proof. intros H. unfold put. destruct (text_dec n' n); congruence. Qed.
Lemma suffix_differs (a b s t : text) : length s = length t -> s <> t -> a ++ s <> b ++ t.
Proof.
  intros L NE E. apply NE. assert (length a = length b) as LL. { apply (f_equal (@length ascii)) in E. rewrite !app_length in E. lia. }
  clear L NE. revert b LL E. induction a as [|x a IH]; intros [|y b] LL E; simpl in *; try lia; auto. injection E as _ E. eauto.
Qed.
Lemma ini_psdd d u : d ++ str "/config.ini" <> u ++ str ".psdd".
Proof.
  change (str "/config.ini") with (str "/confi" ++ str "g.ini"). rewrite app_assoc. apply suffix_differs; [reflexivity|discriminate].
Qed.
Lemma ini_vtree d u : d ++ str "/config.ini" <> u ++ str ".vtree".
Proof. change (str "/config.ini") with (str "/conf" ++ str "ig.ini"). rewrite app_assoc. apply suffix_differs; [reflexivity|discriminate]. Qed.
Lemma psdd_vtree u w : u ++ str ".psdd" <> w ++ str ".vtree".
Proof. change (str ".vtree") with (str "." ++ str "vtree"). rewrite (app_assoc w). apply suffix_differs; [reflexivity|discriminate]. Qed.
Lemma sprintf_ok name suffix : length name + length suffix <= 999 -> sprintf 1000 name suffix = Ok (name ++ suffix).
Proof. intros H. unfold sprintf, lenN. destruct (N.leb_spec (N.of_nat (length name) + N.of_nat (length suffix) + 1) 1000) as [_|L]; auto. lia. Qed.
Lemma sprintf_long name suffix : 1000 <= length name + length suffix -> sprintf 1000 name suffix = UB.
Proof. intros H. unfold sprintf, lenN. destruct (N.leb_spec (N.of_nat (length name) + N.of_nat (length suffix) + 1) 1000) as [L|_]; auto. lia. Qed.

(** The method a word stands for *)
Inductive means (vread : option text -> res vtree) (fs : files) : text -> vmethod -> Prop :=
| means_hyper : means vread fs (str "1") Hyper
| means_jointree : means vread fs (str "2") Jointree
| means_minfill : means vread fs (str "4") MinFill
| means_file w t : ~ In w [str "1"; str "2"; str "4"] -> vread (fs w) = Ok t -> means vread fs w (VtreeFile t).
Lemma method_means vread fs w m : means vread fs w m <-> method_of vread fs w = Ok m.
Proof.
  split.
  - intros [| | |w' t N E]; try reflexivity. unfold method_of.
    destruct (text_dec w' (str "1")); [exfalso; apply N; simpl; auto|]. destruct (text_dec w' (str "4")); [exfalso; apply N; simpl; auto|].
    destruct (text_dec w' (str "2")); [exfalso; apply N; simpl; auto|]. rewrite E. reflexivity.
  - unfold method_of. destruct (text_dec w (str "1")) as [->|N1]; [intros E; injection E as <-; constructor|].
    destruct (text_dec w (str "4")) as [->|N4]; [intros E; injection E as <-; constructor|].
    destruct (text_dec w (str "2")) as [->|N2]; [intros E; injection E as <-; constructor|].
    destruct (vread (fs w)) as [t| | |] eqn:ET; cbn [bind]; intros E; try discriminate. injection E as <-. constructor; auto.
    intros [H|[H|[H|[]]]]; congruence.
Qed.
(** The directory for the configuration of KaHyPar *)
Definition directory (rest : list text) : text := match rest with [d] => d | _ => str "." end.

Section Uai.
Context {P : pops} (showd : P -> text) (x : externals) (rdu : text -> option P) (show : P -> text) (ud : udN) (fuel : nat)
  (vread : option text -> res vtree) (vsave : vtree -> text) (config help noise : text) (fs : files).
Let main := uai_main showd x rdu show ud fuel vread vsave config help noise fs.
Lemma reads method file r : uai_compiler x rdu show ud fuel method file = Ok r -> exists u, read_file rdu fuel fresh_uai file = Ok u.
Proof. unfold uai_compiler. destruct (read_file rdu fuel fresh_uai file) as [u| | |]; cbn [bind]; intros H; try discriminate. eauto. Qed.
Lemma config_ok d : ~ In nul d -> length d <= 488 -> config_name d = Ok (d ++ str "/config.ini").
Proof.
  intros NI L. unfold config_name, strcpy, strcat. assert (cstring d = d) as C.
  { clear L. induction d as [|c d IH]; simpl; auto. destruct (Ascii.eqb c nul) eqn:E; [apply Ascii.eqb_eq in E; subst; exfalso; apply NI; simpl; auto|].
    rewrite IH; auto. intros I; apply NI; simpl; auto. }
  rewrite C. unfold lenN. destruct (N.leb_spec (N.of_nat (length d) + 1) 500); [|lia]. cbn [bind].
  change (cstring (str "/config.ini")) with (str "/config.ini"). change (N.of_nat (length (str "/config.ini"))) with 11%N.
  destruct (N.leb_spec (N.of_nat (length d) + 11 + 1) 500); [reflexivity|lia].
Qed.
Theorem uai_main_ok uai w rest method content size z m : means vread fs w method -> uai_compiler x rdu show ud fuel method (fs uai) = Ok (content, size, z, m) ->
  length uai <= 993 -> (method = Hyper -> ~ In nul (directory rest) /\ length (directory rest) <= 488) ->
  exists fs', main (uai :: w :: rest) = Ok ((0%Z, noise ++ str "Final size " ++ show_N (N.of_nat size) ++ [nl] ++ str "Log Partition " ++ showd z ++ [nl]), fs') /\
    fs' (uai ++ str ".psdd") = Some content /\ fs' (uai ++ str ".vtree") = Some (vsave (m_vt m)) /\
    (method = Hyper -> fs' (directory rest ++ str "/config.ini") = Some config) /\
    forall n, n <> uai ++ str ".psdd" -> n <> uai ++ str ".vtree" -> (method = Hyper -> n <> directory rest ++ str "/config.ini") -> fs' n = fs n.
Proof.
  intros ME E L D. apply method_means in ME. unfold main, uai_main. fold (directory rest). destruct (reads _ _ _ E) as [u ->]. cbn [bind]. rewrite ME. cbn [bind].
  assert (exists fs1, match method with Hyper => do c <- config_name (directory rest) ;; Ok (put fs c config) | _ => Ok fs end = Ok fs1 /\
    (method = Hyper -> fs1 (directory rest ++ str "/config.ini") = Some config) /\
    forall n, (method = Hyper -> n <> directory rest ++ str "/config.ini") -> fs1 n = fs n) as (fs1 & E1 & H1 & H2).
  { destruct method; try (exists fs; split; [reflexivity|]; split; [discriminate|auto]).
    destruct (D eq_refl) as [D1 D2]. rewrite config_ok by auto. cbn [bind]. eexists. split; [reflexivity|]. split; [intros _; apply put_same|].
    intros n Hn. apply put_other. auto. }
  rewrite E1. cbn [bind]. rewrite E. cbn [bind]. rewrite !sprintf_ok by (cbn [str list_ascii_of_string length]; lia). cbn [bind].
  eexists. split; [reflexivity|]. split; [|split; [|split]].
  - rewrite put_other by apply psdd_vtree. apply put_same.
  - apply put_same.
  - intros M. rewrite put_other by apply ini_vtree. rewrite put_other by apply ini_psdd. auto.
  - intros n N1 N2 N3. rewrite !put_other by auto. auto.
Qed.
Theorem uai_main_long uai w rest method r : means vread fs w method -> uai_compiler x rdu show ud fuel method (fs uai) = Ok r ->
  994 <= length uai -> main (uai :: w :: rest) = UB.
Proof.
  intros ME E L. destruct r as [[[content size] z] m]. apply method_means in ME. unfold main, uai_main. fold (directory rest). destruct (reads _ _ _ E) as [u ->]. cbn [bind]. rewrite ME. cbn [bind].
  assert (match method with Hyper => do c <- config_name (directory rest) ;; Ok (put fs c config) | _ => Ok fs end = UB \/
    exists fs1, match method with Hyper => do c <- config_name (directory rest) ;; Ok (put fs c config) | _ => Ok fs end = Ok fs1) as [->|[fs1 ->]].
  { destruct method; eauto. unfold config_name, strcpy, strcat. destruct (N.leb _ 500); cbn [bind]; auto. destruct (N.leb _ 500); cbn [bind]; eauto. }
  - reflexivity.
  - cbn [bind]. rewrite E. cbn [bind]. destruct (le_lt_dec (length uai) 994) as [L1|L1].
    + rewrite sprintf_ok by (cbn [str list_ascii_of_string length]; lia). cbn [bind]. rewrite sprintf_long by (cbn [str list_ascii_of_string length]; lia). reflexivity.
    + rewrite sprintf_long by (cbn [str list_ascii_of_string length]; lia). reflexivity.
Qed.
Theorem uai_main_usage args : length args < 2 -> main args = Ok ((1%Z, help), fs).
Proof. destruct args as [|a [|b l]]; simpl; intros H; auto. lia. Qed.
End Uai.
