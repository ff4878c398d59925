(** Specification layer: PSDDs as trees, their meaning, and sums over instantiations.
    Independent of the model of the code. *)
From Coq Require Import Reals Lra.
From Verif Require Import Base Vtree.
Local Open Scope R_scope.

(** Instantiations of the variables. *)
Definition inst := N -> bool.
Definition upd (x : inst) (v : N) (b : bool) : inst := fun w => if N.eqb w v then b else x w.

(** A PSDD: literal, top (true/false parameter of a variable), or decision with elements
    (prime, sub, parameter). *)
Inductive ptree :=
| TLit (l : Z)
| TTop (v : N) (pt pf : R)
| TDec (es : list (ptree * ptree * R)).
Definition tp (e : ptree * ptree * R) : ptree := fst (fst e).
Definition ts (e : ptree * ptree * R) : ptree := snd (fst e).
Definition tw (e : ptree * ptree * R) : R := snd e.

Section ind.
  Variable Q : ptree -> Prop.
  Hypothesis HL : forall l, Q (TLit l).
  Hypothesis HT : forall v a b, Q (TTop v a b).
  Hypothesis HD : forall es, Forall (fun e => Q (tp e) /\ Q (ts e)) es -> Q (TDec es).
  Fixpoint ptree_ind2 (t : ptree) : Q t :=
    match t with
    | TLit l => HL l
    | TTop v a b => HT v a b
    | TDec es =>
        HD es ((fix go (l : list (ptree * ptree * R)) : Forall (fun e => Q (tp e) /\ Q (ts e)) l :=
                  match l with
                  | [] => Forall_nil _
                  | e :: l' =>
                      Forall_cons e (conj (ptree_ind2 (fst (fst e))) (ptree_ind2 (snd (fst e)))) (go l')
                  end) es)
    end.
End ind.

(** The literal l is satisfied: the variable |l| has the sign of l. *)
Definition lit_sat (l : Z) (x : inst) : bool := Bool.eqb (x (Z.abs_N l)) (Z.ltb 0 l).

Definition rsum {A} (f : A -> R) (l : list A) : R := fold_right (fun a s => f a + s) 0 l.

(** The weight (probability, when normalized) of an instantiation. *)
Fixpoint weight (t : ptree) (x : inst) : R :=
  match t with
  | TLit l => if lit_sat l x then 1 else 0
  | TTop v a b => if x v then a else b
  | TDec es => rsum (fun e => weight (fst (fst e)) x * weight (snd (fst e)) x * snd e) es
  end.
(** Membership in the logical base (parameters ignored). *)
Fixpoint base (t : ptree) (x : inst) : bool :=
  match t with
  | TLit l => lit_sat l x
  | TTop _ _ _ => true
  | TDec es => existsb (fun e => base (fst (fst e)) x && base (snd (fst e)) x) es
  end.

(** A property of every node of the tree. *)
Fixpoint all_nodes (Q : ptree -> Prop) (t : ptree) : Prop :=
  Q t /\ match t with
         | TDec es => fold_right (fun e acc => all_nodes Q (fst (fst e)) /\ all_nodes Q (snd (fst e)) /\ acc) True es
         | _ => True
         end.
Lemma all_nodes_dec Q es :
  all_nodes Q (TDec es) <-> Q (TDec es) /\ Forall (fun e => all_nodes Q (tp e) /\ all_nodes Q (ts e)) es.
Proof.
  simpl. apply and_iff_compat_l. induction es as [|e es IH]; simpl.
  - split; auto.
  - rewrite IH, Forall_cons_iff. unfold tp, ts. tauto.
Qed.
Lemma all_nodes_root Q t : all_nodes Q t -> Q t.
Proof. destruct t; simpl; tauto. Qed.

(** Local parameters sum to one. *)
Definition normalized : ptree -> Prop :=
  all_nodes (fun t => match t with
                      | TLit _ => True
                      | TTop _ a b => a + b = 1
                      | TDec es => rsum tw es = 1
                      end).
Definition positive : ptree -> Prop :=
  all_nodes (fun t => match t with
                      | TLit _ => True
                      | TTop _ a b => 0 < a /\ 0 < b
                      | TDec es => Forall (fun e => 0 < tw e) es
                      end).
Definition nonneg : ptree -> Prop :=
  all_nodes (fun t => match t with
                      | TLit _ => True
                      | TTop _ a b => 0 <= a /\ 0 <= b
                      | TDec es => Forall (fun e => 0 <= tw e) es
                      end).
(** Primes of a decision node are mutually exclusive. *)
Definition deterministic : ptree -> Prop :=
  all_nodes (fun t => match t with
                      | TDec es => ForallOrdPairs (fun e1 e2 => forall x, base (tp e1) x && base (tp e2) x = false) es
                      | _ => True
                      end).
(** Primes of a decision node cover everything (partition). *)
Definition exhaustive : ptree -> Prop :=
  all_nodes (fun t => match t with
                      | TDec es => forall x, existsb (fun e => base (tp e) x) es = true
                      | _ => True
                      end).

(** The tree conforms to the vtree. *)
Fixpoint conforms (vt : vtree) (t : ptree) : Prop :=
  match vt, t with
  | Leaf v, TLit l => Z.abs_N l = v
  | Leaf v, TTop w _ _ => w = v
  | VNode a b, TDec es => es <> [] /\ Forall (fun e => conforms a (tp e) /\ conforms b (ts e)) es
  | _, _ => False
  end.

(** Sum, count and maximum over all instantiations of the variables [vs] (the others as in [x]). *)
Fixpoint sum_over (vs : list N) (f : inst -> R) (x : inst) : R :=
  match vs with
  | [] => f x
  | v :: vs' => sum_over vs' f (upd x v true) + sum_over vs' f (upd x v false)
  end.
Fixpoint count_over (vs : list N) (f : inst -> bool) (x : inst) : N :=
  match vs with
  | [] => if f x then 1%N else 0%N
  | v :: vs' => (count_over vs' f (upd x v true) + count_over vs' f (upd x v false))%N
  end.

(** [x] agrees with the evidence: [mask v = true] means that v is observed with value [e v]. *)
Definition agrees (vs : list N) (mask e x : inst) : Prop :=
  forall v, In v vs -> mask v = true -> x v = e v.
Definition agreesb (vs : list N) (mask e x : inst) : bool :=
  forallb (fun v => negb (mask v) || Bool.eqb (x v) (e v)) vs.
Lemma agreesb_spec vs mask e x : agreesb vs mask e x = true <-> agrees vs mask e x.
Proof.
  unfold agreesb, agrees. rewrite forallb_forall. split; intros H v Hv.
  - intros Hm. specialize (H v Hv). rewrite Hm in H. simpl in H. apply eqb_prop in H. exact H.
  - destruct (mask v) eqn:E; simpl; auto. rewrite (H v Hv E). apply eqb_reflx.
Qed.
