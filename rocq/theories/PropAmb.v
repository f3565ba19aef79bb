(** * What the warnings miss: exactly the start symbols that derive themselves.  C51. *)
From Coq Require Import List Arith Lia Bool.
From Verif Require Import Lib Grammar LrModel LrSpec LrTop ParseModel Trees ParseSpec ParseInv ParseComplete GramFacts ParseTerm ParseTop ParseMore ParseExamples PropParse.
Import ListNotations.

Fixpoint tsize (t : tree) : nat := match t with Node _ ts => S (list_sum (map tsize ts)) | _ => 1 end.
Definition tsizes (ts : list tree) : nat := list_sum (map tsize ts).

Section Ambiguous.
  Context {T : Type} (tix : T -> nat) (rules : list rule) (input : list T).
  Notation twf := (twf tix rules input).
  Notation twfs := (twfs tix rules input).

  Lemma twfs_app_inv l1 : forall l2 ts, twfs (l1 ++ l2) ts -> exists t1 t2, ts = t1 ++ t2 /\ twfs l1 t1 /\ twfs l2 t2.
  Proof.
    induction l1 as [|X l1 IH]; intros l2 ts H; simpl in H.
    - exists [], ts. split; auto. split; auto. constructor.
    - inversion H; subst. destruct (IH _ _ H4) as (t1 & t2 & -> & A & B). exists (t :: t1), t2. split; auto. split; auto. constructor; auto.
  Qed.
  Lemma twfs_app l1 : forall l2 t1 t2, twfs l1 t1 -> twfs l2 t2 -> twfs (l1 ++ l2) (t1 ++ t2).
  Proof. induction l1 as [|X l1 IH]; intros l2 t1 t2 H1 H2; inversion H1; subst; simpl; auto. constructor; auto. Qed.

  (** trees follow rewriting backwards *)
  Lemma rewr_trees l l' : rewr rules l l' -> forall ts', twfs l' ts' -> exists ts, twfs l ts /\
    flat_map leaves ts = flat_map leaves ts' /\ forallb clean ts = forallb clean ts' /\ tsizes ts' <= tsizes ts.
  Proof.
    induction 1 as [l|l1 r l2 l' Hr H IH]; intros ts' Ht; [exists ts'; auto|].
    destruct (IH ts' Ht) as (ts & A & B & C & D). apply twfs_app_inv in A as (t1 & t23 & -> & A1 & A2). apply twfs_app_inv in A2 as (t2 & t3 & -> & A2 & A3).
    apply In_nth_error in Hr as [k Hk]. exists (t1 ++ Node k t2 :: t3). split; [|split; [|split]].
    - apply twfs_app; auto. constructor; auto. constructor; auto.
    - rewrite <- B, !flat_map_app. simpl. reflexivity.
    - rewrite <- C, !forallb_app. simpl. reflexivity.
    - unfold tsizes in *. rewrite !map_app, !list_sum_app in D. rewrite !map_app, !list_sum_app. simpl. lia.
  Qed.

  (** a symbol that derives itself gives every tree of it a bigger one *)
  Lemma cyclic_tree A t : cyclic rules A -> twf (NT A) t -> exists t', twf (NT A) t' /\ leaves t' = leaves t /\ clean t' = clean t /\ t' <> t.
  Proof.
    intros (r & Hr & Hl & Hw) Ht. destruct (rewr_trees _ _ Hw [t]) as (ts & B & C & D & F); [constructor; [auto|constructor]|].
    apply In_nth_error in Hr as [k Hk]. exists (Node k ts). split; [rewrite <- Hl; econstructor; eauto|]. simpl in *.
    rewrite app_nil_r in C. rewrite andb_true_r in D. split; auto. split; auto. intros E. unfold tsizes in F. simpl in F.
    assert (G : tsize t = S (list_sum (map tsize ts))) by (rewrite <- E; reflexivity). lia.
  Qed.
End Ambiguous.

(** C51: for a grammar without warnings the token sequences have at most one derivation tree each if and only if the
    start symbol does not derive itself (or nothing is derivable); and if it does derive itself, every derivable sequence
    has several trees *)
Theorem C51_ambiguous_exactly : forall N T E (nix : N -> nat) (tix : T -> nat) e (s : syntax N T E) P,
  api_syntax nix tix s -> makes e s P [] ->
  ((forall w t1 t2, proper_tree tix s w t1 -> proper_tree tix s w t2 -> t1 = t2) <->
   ~ (cyclic (gram s) (sx_start s) /\ exists w, derivable tix s w)) /\
  (cyclic (gram s) (sx_start s) -> forall w t, proper_tree tix s w t -> exists t', proper_tree tix s w t' /\ t' <> t).
Proof.
  intros N T E nix tix e s P Ha Hmk.
  assert (G : cyclic (gram s) (sx_start s) -> forall w t, proper_tree tix s w t -> exists t', proper_tree tix s w t' /\ t' <> t).
  { intros Hc w t [[H1 H2] H3]. destruct (cyclic_tree tix (gram s) w _ t Hc H1) as (t' & A & B & C & D). exists t'. split; auto.
    split; [split; [auto|congruence]|congruence]. }
  split; [|exact G]. split.
  - intros H [Hc [w Hd]]. apply derivable_tree in Hd as [t Ht]. destruct (G Hc w t Ht) as (t' & A & B). apply B. eapply H; eauto.
  - intros H w t1 t2 H1 H2. eapply C24_unambiguous_partial; eauto. intros Hc. apply H. split; auto. exists w. apply derivable_tree. eauto.
Qed.
Print Assumptions C51_ambiguous_exactly.
Example C51_example : api_syntax nix0 tkix expr /\ makes env0 expr P_expr [] /\ ~ cyclic (gram expr) (sx_start expr) /\
  api_syntax nix0 tkix g_cyc /\ makes env0 g_cyc (fst (build env0 g_cyc)) [] /\ cyclic (gram g_cyc) (sx_start g_cyc) /\ proper_tree tkix g_cyc [(kId, 5)] (Node 1 [Leaf 0]).
Proof.
  split; [apply (expr_api _)|]. split; [apply expr_makes|]. split; [apply (expr_not_cyclic _)|].
  split; [raw|]. split; [mk|]. split; [|apply tree_check_ok; reflexivity].
  exists (mk_rule 0 [NT 0]). split; [simpl; auto|]. split; [reflexivity|constructor].
Qed.
