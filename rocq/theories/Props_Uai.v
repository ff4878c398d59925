(** Property theorems C45 (UAI files).  [rd]: how a word is read as a parameter; [scope_line l vs]: line l lists the scope vs (indices from 0,
    after their number); [table_lines rd ls ps]: the lines ls are a table ps: empty lines, the number of entries, and the entries on any number
    of lines; [feeds ls st]: the file starts with the lines ls, the last one with or without newline; [unlines ls]: the lines ls, each with
    its newline. *)
From Coq Require Import Ascii String.
From Verif Require Import Base Param ParamProofs HeapExamples QueryExamples Text CnfExamples Uai UaiProofs UaiExamples.

(** C45: a well formed file is read as written *)
Theorem C45_read : forall (P : pops) (rd : text -> option P) l1 l2 l3 l4 scs tbs ty nv scopes tables s fuel u,
  ty = (if contains (str "BAYES") l1 then 2%N else 1%N) -> stoi l2 = Ok (Z.of_N nv) -> stoi l4 = Ok (Z.of_nat (length scopes)) ->
  Forall2 scope_line scs scopes -> Forall2 (table_lines rd) tbs tables -> length scopes = length tables ->
  feeds (l1 :: l2 :: l3 :: l4 :: scs ++ concat tbs) (s, true) -> length (concat tbs) <= fuel ->
  read_file rd fuel u (Some s) = Ok {| u_vars := nv; u_factors := N.of_nat (length scopes); u_type := ty; u_scopes := u_scopes u ++ scopes; u_params := u_params u ++ tables |}.
Proof. intros. eapply read_uai; eauto. split; eauto. Qed.
Print Assumptions C45_read.
Example C45_read_nonvacuous : Forall2 scope_line uai_scs uai_scopes /\ Forall2 (@table_lines Qex rd_pct) uai_tbs uai_tables /\
  feeds (uai_l1 :: uai_l2 :: uai_l3 :: uai_l2 :: uai_scs ++ concat uai_tbs) (uai_file, true) /\ read_file rd_pct 9 no_uai (Some uai_file) = Ok uai_net.
Proof. split; [exact (ut_scopes _ _ _ _ _ _ _ _ _ _ _ uai_ex_text)|]. split; [exact (ut_tables _ _ _ _ _ _ _ _ _ _ _ uai_ex_text)|]. split; [exact uai_ex_feeds|vm_compute; reflexivity]. Qed.
(** A file that cannot be opened stops the program, like a first line without number of variables; so does a missing number of factors.  A
    negative number of factors is undefined behaviour. *)
Theorem C45_missing : forall (P : pops) (rd : text -> option P) fuel u, read_file rd fuel u None = Abort /\ read_file rd fuel u (Some []) = Abort /\
  (forall l1 l2 s, feeds [l1; l2] (s, true) -> stoi l2 = Abort -> read_file rd fuel u (Some s) = Abort) /\
  (forall l1 l2 l3 l4 s nv, feeds [l1; l2; l3; l4] (s, true) -> stoi l2 = Ok nv ->
    (stoi l4 = Abort -> read_file rd fuel u (Some s) = Abort) /\
    (forall nf, stoi l4 = Ok nf -> (nf < 0)%Z -> read_file rd fuel u (Some s) = UB)).
Proof. exact @uai_missing. Qed.
Print Assumptions C45_missing.
Example C45_missing_nonvacuous : feeds [str "M"; str "x"] (str "M" ++ nl :: str "x" ++ nl :: str "2", true) /\ stoi (str "x") = Abort /\ stoi (str " -3") = Ok (-3)%Z.
Proof.
  split; [|split; reflexivity]. apply feeds_cons; [intros [E|[]]; discriminate|]. apply feeds_cons; [intros [E|[]]; discriminate|]. constructor.
Qed.
(** reading does not terminate, whatever the number of steps, on any file that ends after a newline before its last table is complete *)
Theorem C45_terminates_refuted : forall (P : pops) (rd : text -> option P) l1 l2 l3 l4 scs tbs tl nv scopes tables s fuel u,
  stoi l2 = Ok nv -> stoi l4 = Ok (Z.of_nat (length scopes)) -> Forall2 scope_line scs scopes ->
  Forall2 (table_lines rd) tbs tables -> length tables < length scopes -> cut_table rd tl -> Forall no_nl (l1 :: l2 :: l3 :: l4 :: scs ++ concat tbs ++ tl) ->
  s = unlines (l1 :: l2 :: l3 :: l4 :: scs ++ concat tbs ++ tl) -> read_file rd fuel u (Some s) = NoFuel.
Proof. exact @truncated_loops. Qed.
Print Assumptions C45_terminates_refuted.
Example C45_terminates_witness : cut_table (P := Qex) rd_pct [[]; str "4"; str "10 20"] /\ (forall fuel, read_file rd_pct fuel no_uai (Some cut_file) = NoFuel).
Proof.
  split; [exact cut_ex|]. intros fuel.
  apply (C45_terminates_refuted Qex rd_pct uai_l1 uai_l2 uai_l3 uai_l2 uai_scs [] [[]; str "4"; str "10 20"] 2 uai_scopes []); auto.
  - exact (ut_scopes _ _ _ _ _ _ _ _ _ _ _ uai_ex_text).
  - simpl; lia.
  - exact cut_ex.
  - exact cut_no_nl.
Qed.
(** a truncated file without final newline is accepted: the last line is read again, inside a table and instead of one; a line of blanks
    makes the number of entries indeterminate; a second read adds to the first; the sizes of the domains are not looked at *)
Theorem C45_malformed_refuted :
  read_file rd_pct 9 no_uai (Some half_file) = Ok {| u_vars := 1; u_factors := 1; u_type := 1; u_scopes := [[1%N]]; u_params := [[pct 10; pct 20; pct 10; pct 20]] |} /\
  read_file rd_pct 9 no_uai (Some missing_table) = Ok {| u_vars := 1; u_factors := 2; u_type := 1; u_scopes := [[1%N]; [1%N]]; u_params := [[pct 30; pct 70]; [pct 30; pct 70]] |} /\
  read_file rd_pct 9 no_uai (Some blank_file) = UB /\
  (do u <- read_file rd_pct 9 no_uai (Some uai_file) ;; read_file rd_pct 9 u (Some uai_file)) =
    Ok {| u_vars := 2; u_factors := 2; u_type := 1; u_scopes := uai_scopes ++ uai_scopes; u_params := uai_tables ++ uai_tables |} /\
  read_file rd_pct 9 no_uai (Some (unlines (uai_l1 :: uai_l2 :: str "5 7" :: uai_l2 :: uai_scs ++ concat uai_tbs))) = Ok uai_net.
Proof. split; [vm_compute; reflexivity|]. split; [vm_compute; reflexivity|]. split; [vm_compute; reflexivity|]. split; vm_compute; reflexivity. Qed.
Print Assumptions C45_malformed_refuted.
