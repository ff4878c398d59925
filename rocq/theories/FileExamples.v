(** Witnesses for C68. *)
From Coq Require Import Ascii String Reals Lra Permutation.
From Verif Require Import Base Param ParamProofs Vtree VtreeProofs Spec SpecProofs Heap Manager HeapProofs SerProofs RepProofs LoadProofs ReplayProofs
  Text IO IOProofs Data Uai NumProofs FileProofs.

Definition fx_vt : vtree := VNode (Leaf 1%N) (Leaf 2%N).
(** id 0: variable 1, id 1: variable 2, id 2: the decision node given by the elements *)
Definition fx_file (n elems : string) : text := unlines (map str ["c made by another program"; "psdd " ++ n; "L 0 0 1"; "L  1 7 +2 rest"; "D 2 1 " ++ elems]%string).
Definition fx_cut (n : string) : text := unlines (map str ["c made by another program"; "psdd " ++ n; "L 0 0 1"; "L  1 7 +2 rest"]%string).
Lemma fx_lines n elems : no_nl (str n) -> no_nl (str elems) -> lines (fx_file n elems) = map str ["c made by another program"; "psdd " ++ n; "L 0 0 1"; "L  1 7 +2 rest"; "D 2 1 " ++ elems]%string.
Proof.
  intros A B. apply lines_unlines. cbn [map]. repeat (apply Forall_cons || apply Forall_nil); try (intros H; repeat (destruct H as [H|H]; [discriminate H|]); exact H);
  intros H; repeat (destruct H as [H|H]; [discriminate H|]); auto.
Qed.
Lemma fx_no_nl : no_nl (str "3") /\ no_nl (str "9") /\ no_nl (str "1 0 1 x") /\ no_nl (str "1 1 0 x") /\ no_nl (str "1 0 0 x") /\ no_nl (str "1 0 5 x").
Proof. repeat split; intros H; repeat (destruct H as [H|H]; [discriminate H|]); exact H. Qed.

Section Witness.
Context {P : pops} (rd : text -> option P) (log0 : P).
Definition fx_nodes (fl : N) (i j : nat) (w : P) : heap P := [MkN [false] fl (BLit 1); MkN [true] fl (BLit 2); MkN [] fl (BDec [MkE i j w])].
Definition fx_word : P := match rd (str "x") with Some a => a | None => log0 end.
Lemma fx_read fl : ReadPsddFile rd log0 (fx_file "3" "1 0 1 x") fl (new_mgr fx_vt) = Ok (Some 2, MkM fx_vt (fx_nodes fl 0 1 fx_word) [0; 1; 2]).
Proof. unfold ReadPsddFile. rewrite fx_lines by apply fx_no_nl. unfold fx_word. cbv. destruct (rd _); reflexivity. Qed.
Lemma fx_read_count fl : ReadPsddFile rd log0 (fx_file "9" "1 0 1 x") fl (new_mgr fx_vt) = Ok (Some 2, MkM fx_vt (fx_nodes fl 0 1 fx_word) [0; 1; 2]).
Proof. unfold ReadPsddFile. rewrite fx_lines by apply fx_no_nl. unfold fx_word. cbv. destruct (rd _); reflexivity. Qed.
Lemma fx_swapped fl : ReadPsddFile rd log0 (fx_file "3" "1 1 0 x") fl (new_mgr fx_vt) = Ok (Some 2, MkM fx_vt (fx_nodes fl 1 0 fx_word) [0; 1; 2]).
Proof. unfold ReadPsddFile. rewrite fx_lines by apply fx_no_nl. unfold fx_word. cbv. destruct (rd _); reflexivity. Qed.
Lemma fx_twice fl : ReadPsddFile rd log0 (fx_file "3" "1 0 0 x") fl (new_mgr fx_vt) = Ok (Some 2, MkM fx_vt (fx_nodes fl 0 0 fx_word) [0; 1; 2]).
Proof. unfold ReadPsddFile. rewrite fx_lines by apply fx_no_nl. unfold fx_word. cbv. destruct (rd _); reflexivity. Qed.
Lemma fx_cut_read fl : ReadPsddFile rd log0 (fx_cut "3") fl (new_mgr fx_vt) = Ok (Some 1, MkM fx_vt (firstn 2 (fx_nodes fl 0 1 fx_word)) [0; 1]).
Proof. reflexivity. Qed.

(** ** The file as a description *)
Lemma field lo hi ws sg ds rest z : blanks ws -> is_digits ds -> ds <> [] -> nodig rest -> z = signed sg (value ds) -> (lo <= z <= hi)%Z ->
  int_field lo hi (ws ++ sign_text sg ++ numeral ds ++ rest) z rest.
Proof. intros. exists ws, sg, ds. tauto. Qed.
Ltac fld ws sg ds := unfold u32, u64, i32; match goal with |- int_field ?lo ?hi ?s ?z ?rest => apply (field lo hi ws sg ds rest z); [repeat constructor|repeat constructor|discriminate|exact Logic.I||reflexivity|reflexivity|cbn; lia] end.
Definition fx_items (n : Z) (els : list (Z * Z * P)) : list item := [Count n; ILit 0 1; ILit 1 2; IDec 2 els].
Lemma fx_spells a : rd (str "x") = Some a -> Forall2 (spells rd) (lines (fx_file "3" "1 0 1 x")) ([Comment] ++ fx_items 3 [(0%Z, 1%Z, a)]).
Proof.
  intros E. rewrite fx_lines by apply fx_no_nl. cbn [map app fx_items].
  apply Forall2_cons; [constructor|]. apply Forall2_cons.
  { apply sp_count with (rest := []). fld (@nil ascii) Unsigned [3%N]. }
  apply Forall2_cons.
  { apply sp_lit with (s1 := str " 0 1") (vt := 0%Z) (s2 := str " 1") (rest := []); [fld (str " ") Unsigned [0%N]|fld (str " ") Unsigned [0%N]|fld (str " ") Unsigned [1%N]]. }
  apply Forall2_cons.
  { apply sp_lit with (s1 := str " 7 +2 rest") (vt := 7%Z) (s2 := str " +2 rest") (rest := str " rest"); [fld (str "  ") Unsigned [1%N]|fld (str " ") Unsigned [7%N]|fld (str " ") Plus [2%N]]. }
  apply Forall2_cons; [|constructor].
  apply sp_dec with (s1 := str " 1 1 0 1 x") (vt := 1%Z) (s2 := str " 1 0 1 x") (s3 := str " 0 1 x"); [fld (str " ") Unsigned [2%N]|fld (str " ") Unsigned [1%N]|fld (str " ") Unsigned [1%N]|].
  apply et_cons with (s1 := str " 1 x") (s2 := str " x") (s3 := []); [fld (str " ") Unsigned [0%N]|fld (str " ") Unsigned [1%N]| |constructor].
  exists (str " "), (str "x"). repeat split; auto; try (repeat constructor); discriminate.
Qed.
Lemma fx_means (val : P -> R) n a : file_means val fx_vt [] (fx_items n [(0%Z, 1%Z, a)])
  [(2%Z, ([], TDec [(TLit 1, TLit 2, val a)])); (1%Z, ([true], TLit 2)); (0%Z, ([false], TLit 1))].
Proof.
  unfold fx_items. apply fm_cons with (e1 := []); [constructor|].
  eapply fm_cons; [apply im_lit with (p := [false]); reflexivity|]. eapply fm_cons; [apply im_lit with (p := [true]); reflexivity|].
  eapply fm_cons; [|constructor]. apply im_dec with (l := Leaf 1%N) (r := Leaf 2%N); [reflexivity|discriminate|]. constructor; [|constructor]. repeat split.
Qed.
Lemma fx_rep (val : P -> R) fl i j w t : Rep val (fx_nodes fl i j w) 2 t -> i < 2 -> j < 2 -> i <> 0 \/ j <> 1 -> ~ conforms fx_vt t.
Proof.
  intros H Li Lj N C. inversion H as [| |? nd es tes E Eb F]; subst; try (simpl in *; congruence).
  simpl in E. injection E as <-. simpl in Eb. injection Eb as <-. inversion F as [|e te ? ? (R1 & R2 & _) F']; subst. inversion F'; subst. simpl in R1, R2.
  destruct C as (_ & C). inversion C as [|? ? (C1 & C2) _]; subst.
  destruct N as [N|N].
  - assert (i = 1) as -> by lia. assert (Rep val (fx_nodes fl 1 j w) 1 (TLit 2)) as K by (eapply Rep_lit; reflexivity). rewrite (Rep_fun val _ _ _ _ R1 K) in C1. discriminate C1.
  - assert (j = 0) as -> by lia. assert (Rep val (fx_nodes fl i 0 w) 0 (TLit 1)) as K by (eapply Rep_lit; reflexivity). rewrite (Rep_fun val _ _ _ _ R2 K) in C2. discriminate C2.
Qed.
Lemma fx_bad : (exists k els a b w, spells rd (str "D 2 1 1 0 5 x") (IDec k els) /\ In (a, b, w) els /\ b = 5%Z) \/ rd (str "x") = None.
Proof.
  destruct (rd (str "x")) as [w|] eqn:E; [left|auto]. exists 2%Z, [(0%Z, 5%Z, w)], 0%Z, 5%Z, w. split; [|split; [left; auto|auto]].
  apply sp_dec with (s1 := str " 1 1 0 5 x") (vt := 1%Z) (s2 := str " 1 0 5 x") (s3 := str " 0 5 x"); [fld (str " ") Unsigned [2%N]|fld (str " ") Unsigned [1%N]|fld (str " ") Unsigned [1%N]|].
  apply et_cons with (s1 := str " 5 x") (s2 := str " x") (s3 := []); [fld (str " ") Unsigned [0%N]|fld (str " ") Unsigned [5%N]| |constructor].
  exists (str " "), (str "x"). repeat split; auto; try (repeat constructor); discriminate.
Qed.
End Witness.
