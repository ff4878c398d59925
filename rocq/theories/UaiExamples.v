(** Concrete UAI files; rd_pct reads a number of hundredths. *)
From Coq Require Import Ascii String.
From Verif Require Import Base Param ParamProofs HeapExamples QueryExamples Text CnfExamples Uai UaiProofs.

Definition no_uai : uai Qex := {| u_vars := 0; u_factors := 0; u_type := 0; u_scopes := []; u_params := [] |}.
Definition pct (n : N) : Qex := q n 100.
(** two factors, f(x1, x2) and f(x2); the first table is on two lines after an empty one *)
Definition uai_l1 := str "MARKOV".
Definition uai_l2 := str "2".
Definition uai_l3 := str "2 2".
Definition uai_scs := [str "2 0 1"; str "1 1"].
Definition uai_tbs := [[[]; str "4"; str "10 20"; str " 30 40"]; [str "2 50 60"]].
Definition uai_file : text := unlines (uai_l1 :: uai_l2 :: uai_l3 :: uai_l2 :: uai_scs ++ concat uai_tbs).
Definition uai_scopes : list (list N) := [[1; 2]; [2]]%N.
Definition uai_tables : list (list Qex) := [[pct 10; pct 20; pct 30; pct 40]; [pct 50; pct 60]].
Definition uai_net : uai Qex := {| u_vars := 2; u_factors := 2; u_type := 1; u_scopes := uai_scopes; u_params := uai_tables |}.
Lemma uai_ex_text : @uai_text Qex rd_pct uai_l1 uai_l2 uai_l3 uai_l2 uai_scs uai_tbs 1 2 uai_scopes uai_tables.
Proof.
  split; try reflexivity.
  - unfold uai_scs, uai_scopes. apply Forall2_cons; [|apply Forall2_cons; [|apply Forall2_nil]].
    + exists (str "2"), 2%Z, [str "0"; str "1"]. split; [reflexivity|]. split; [reflexivity|]. apply Forall2_cons; [|apply Forall2_cons; [|apply Forall2_nil]]; repeat split; lia.
    + exists (str "1"), 1%Z, [str "1"]. split; [reflexivity|]. split; [reflexivity|]. apply Forall2_cons; [|apply Forall2_nil]; repeat split; lia.
  - unfold uai_tbs, uai_tables. apply Forall2_cons; [|apply Forall2_cons; [|apply Forall2_nil]].
    + apply tl_empty. apply (tl_table rd_pct (str "4") [str "10 20"; str " 30 40"] (str "4") [] 4 [] _); try reflexivity; try (unfold max_entries; simpl; lia); [constructor|].
      apply (el_line rd_pct 4 (str "10 20") [str " 30 40"] [pct 10; pct 20] [pct 30; pct 40]); [lia| |simpl; lia|]; [apply Forall2_cons; [reflexivity|apply Forall2_cons; [reflexivity|apply Forall2_nil]]|].
      apply (el_line rd_pct 2 (str " 30 40") [] [pct 30; pct 40] []); [lia| |simpl; lia|apply el_done]. apply Forall2_cons; [reflexivity|apply Forall2_cons; [reflexivity|apply Forall2_nil]].
    + apply (tl_table rd_pct (str "2 50 60") [] (str "2") [str "50"; str "60"] 2 [pct 50; pct 60] []); try reflexivity; try (unfold max_entries; simpl; lia); [|apply el_done].
      apply Forall2_cons; [reflexivity|apply Forall2_cons; [reflexivity|apply Forall2_nil]].
Qed.
Lemma uai_ex_feeds : feeds (uai_l1 :: uai_l2 :: uai_l3 :: uai_l2 :: uai_scs ++ concat uai_tbs) (uai_file, true).
Proof.
  apply feeds_all_unfold, feeds_all_unlines. apply Forall_forall. intros l Hl H. simpl in Hl. repeat (destruct Hl as [<-|Hl]; [simpl in H; intuition discriminate|]). contradiction.
Qed.
(** the same, cut off after "10 20" *)
Definition cut_lines := uai_l1 :: uai_l2 :: uai_l3 :: uai_l2 :: uai_scs ++ [[]; str "4"; str "10 20"].
Definition cut_file : text := unlines cut_lines.
Lemma cut_ex : cut_table rd_pct [[]; str "4"; str "10 20"].
Proof.
  apply ct_empty. apply (ct_table rd_pct (str "4") [str "10 20"] (str "4") [] 4 []); try reflexivity; try (unfold max_entries; simpl; lia); [apply Forall2_nil|].
  apply (ce_line rd_pct 4 (str "10 20") [] [pct 10; pct 20]); [apply Forall2_cons; [reflexivity|apply Forall2_cons; [reflexivity|apply Forall2_nil]]|simpl; lia|].
  apply ce_end. simpl. lia.
Qed.
Lemma cut_no_nl : Forall no_nl cut_lines.
Proof. apply Forall_forall. intros l Hl H. simpl in Hl. repeat (destruct Hl as [<-|Hl]; [simpl in H; intuition discriminate|]). contradiction. Qed.
(** one variable, and the file ends without newline inside the table *)
Definition half_file : text := unlines [str "MARKOV"; str "1"; str "2"; str "1"; str "1 0"; str "4"] ++ str "10 20".
(** the second table is missing *)
Definition missing_table : text := unlines [str "MARKOV"; str "1"; str "2"; str "2"; str "1 0"; str "1 0"] ++ str "2 30 70".
(** a line of blanks between tables *)
Definition blank_file : text := unlines [str "MARKOV"; str "1"; str "2"; str "1"; str "1 0"; str " "; str "2 30 70"].

(** Files without the sizes *)
Lemma uai_missing (P : pops) (rd : text -> option P) fuel u : read_file rd fuel u None = Abort /\ read_file rd fuel u (Some []) = Abort /\
  (forall l1 l2 s, feeds [l1; l2] (s, true) -> stoi l2 = Abort -> read_file rd fuel u (Some s) = Abort) /\
  (forall l1 l2 l3 l4 s nv, feeds [l1; l2; l3; l4] (s, true) -> stoi l2 = Ok nv ->
    (stoi l4 = Abort -> read_file rd fuel u (Some s) = Abort) /\
    (forall nf, stoi l4 = Ok nf -> (nf < 0)%Z -> read_file rd fuel u (Some s) = UB)).
Proof.
  split; [reflexivity|]. split; [reflexivity|]. split.
  - intros l1 l2 s F E. unfold read_file. destruct (getline_feeds _ _ _ [] F) as (st1 & -> & F1). destruct (getline_feeds _ _ _ l1 F1) as (st2 & -> & F2).
    rewrite E. reflexivity.
  - intros l1 l2 l3 l4 s nv F E. unfold read_file. destruct (getline_feeds _ _ _ [] F) as (st1 & -> & F1). destruct (getline_feeds _ _ _ l1 F1) as (st2 & -> & F2).
    rewrite E. cbn [bind]. destruct (getline_feeds _ _ _ l2 F2) as (st3 & -> & F3). destruct (getline_feeds _ _ _ l3 F3) as (st4 & -> & F4). split.
    + intros ->. reflexivity.
    + intros nf -> L. cbn [bind]. rewrite (proj2 (Z.ltb_lt nf 0)) by auto. reflexivity.
Qed.
