(** Outcomes of modelled C++ functions, and small list helpers shared by the model.
    Nothing here models a particular function of /repo. *)
From Coq Require Export List ZArith NArith Lia Bool Permutation Arith.
Export ListNotations.

(** [Abort]: failed assert / exit(1).  [UB]: undefined behaviour (null dereference, access out of
    range, ...).  [NoFuel]: the model's recursion bound was exhausted (or, where a theorem says so,
    the code does not terminate). *)
Inductive res (A : Type) : Type :=
| Ok (a : A)
| Abort
| UB
| NoFuel.
Arguments Ok {A} a.
Arguments Abort {A}.
Arguments UB {A}.
Arguments NoFuel {A}.

Definition bind {A B} (m : res A) (k : A -> res B) : res B :=
  match m with
  | Ok a => k a
  | Abort => Abort
  | UB => UB
  | NoFuel => NoFuel
  end.

Notation "'do' p <- m ;; k" := (bind m (fun p => k))
  (at level 200, p pattern, m at level 100, k at level 200, right associativity).

(** Failing assertion aborts. *)
Definition assert (b : bool) : res unit := if b then Ok tt else Abort.

(** Checked access: absent means undefined behaviour. *)
Definition get {A} (o : option A) : res A :=
  match o with Some a => Ok a | None => UB end.

(** A loop over a list with state. *)
Fixpoint foldM {S A} (f : S -> A -> res S) (l : list A) (s : S) : res S :=
  match l with
  | [] => Ok s
  | a :: l' => do s' <- f s a ;; foldM f l' s'
  end.

Fixpoint mapM {A B} (f : A -> res B) (l : list A) : res (list B) :=
  match l with
  | [] => Ok []
  | a :: l' => do b <- f a ;; do bs <- mapM f l' ;; Ok (b :: bs)
  end.

Lemma bind_ok {A B} (m : res A) (k : A -> res B) b :
  bind m k = Ok b -> exists a, m = Ok a /\ k a = Ok b.
Proof. destruct m; simpl; intros H; try discriminate; eauto. Qed.

Lemma foldM_app {S A} (f : S -> A -> res S) l1 l2 s :
  foldM f (l1 ++ l2) s = (do s' <- foldM f l1 s ;; foldM f l2 s').
Proof.
  revert s; induction l1 as [|a l1 IH]; intros s; simpl; [reflexivity|].
  destruct (f s a); simpl; auto.
Qed.

Lemma mapM_ok {A B} (f : A -> res B) l bs :
  mapM f l = Ok bs -> Forall2 (fun a b => f a = Ok b) l bs.
Proof.
  revert bs; induction l as [|a l IH]; simpl; intros bs H.
  - injection H as <-; constructor.
  - apply bind_ok in H as (b & Hb & H). apply bind_ok in H as (bs' & Hbs & H).
    injection H as <-. constructor; auto.
Qed.

Lemma mapM_Forall2 {A B} (f : A -> res B) l bs :
  Forall2 (fun a b => f a = Ok b) l bs -> mapM f l = Ok bs.
Proof. induction 1 as [|a b l bs Hab H IH]; simpl; [reflexivity|]. rewrite Hab; simpl; rewrite IH; reflexivity. Qed.

(** Maps from keys to values as association lists, newest binding first. *)
Section Assoc.
  Context {K V : Type} (eqb : K -> K -> bool).
  Fixpoint alookup (k : K) (m : list (K * V)) : option V :=
    match m with
    | [] => None
    | (k', v) :: m' => if eqb k k' then Some v else alookup k m'
    end.
End Assoc.

Definition nlookup {V} := @alookup nat V Nat.eqb.
Definition Nlookup {V} := @alookup N V N.eqb.
Definition Zlookup {V} := @alookup Z V Z.eqb.

Lemma nlookup_cons {V} k k' (v : V) m :
  nlookup k ((k', v) :: m) = if Nat.eqb k k' then Some v else nlookup k m.
Proof. reflexivity. Qed.
Lemma Nlookup_cons {V} k k' (v : V) m :
  Nlookup k ((k', v) :: m) = if N.eqb k k' then Some v else Nlookup k m.
Proof. reflexivity. Qed.

Definition memb (i : nat) (l : list nat) : bool := existsb (Nat.eqb i) l.
Lemma memb_In i l : memb i l = true <-> In i l.
Proof.
  unfold memb. rewrite existsb_exists. split.
  - intros (x & Hx & E). apply Nat.eqb_eq in E. subst; auto.
  - intros H. exists i. split; auto. apply Nat.eqb_refl.
Qed.
Lemma memb_false i l : memb i l = false <-> ~ In i l.
Proof. rewrite <- memb_In. destruct (memb i l); split; intros; congruence. Qed.

Definition NmemB (i : N) (l : list N) : bool := existsb (N.eqb i) l.
Lemma NmemB_In i l : NmemB i l = true <-> In i l.
Proof.
  unfold NmemB. rewrite existsb_exists. split.
  - intros (x & Hx & E). apply N.eqb_eq in E. subst; auto.
  - intros H. exists i. split; auto. apply N.eqb_refl.
Qed.
Lemma NmemB_false i l : NmemB i l = false <-> ~ In i l.
Proof. rewrite <- NmemB_In. destruct (NmemB i l); split; intros; congruence. Qed.

(** Invert chains of binds in hypotheses. *)
Ltac inv_bind H :=
  match type of H with
  | bind ?m ?k = Ok _ =>
      let a := fresh "a" in let H1 := fresh "H" in
      apply bind_ok in H as (a & H1 & H)
  end.
Tactic Notation "bk" hyp(H) "as" simple_intropattern(p) simple_intropattern(E) :=
  apply bind_ok in H as (p & E & H); cbv beta iota zeta in H.
