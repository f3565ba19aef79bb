(** * Property C70: how conflicts are resolved

    For every grammar, whatever its warnings: when [parse] succeeds (without syntax errors), the value is that of the
    preferred tree, where taking a token is preferred to applying a rule, and an earlier rule to a later one. *)
From Coq Require Import List Arith Lia Bool Sorted.
From Verif Require Import Lib Grammar LrModel LrSpec LrTop ParseModel Trees ParseSpec ParseTop ParseMore ParseExamples PropParse ChoiceSpec ChoiceProofs.
Import ListNotations.

Section Shapes.
  Context {T : Type} (tix : T -> nat) (G : list rule) (w : list T).
  Lemma occurs_twf u t X : occurs u t -> twf tix G w X t -> clean t = true -> exists Y, twf tix G w Y u /\ clean u = true.
  Proof.
    intros H. revert X. induction H as [|k l1 t l2 _ IH]; intros X Ht Hc; [eauto|]. inversion Ht as [| |k0 r ts Hr Hs]; subst.
    cbn [clean] in Hc. rewrite forallb_app in Hc. simpl in Hc. apply andb_true_iff in Hc as [_ Hc]. apply andb_true_iff in Hc as [Hc _].
    clear Hr Ht. revert Hs. generalize (r_rhs r). induction l1 as [|t1 l1 IHl]; intros l Hs; simpl in Hs; inversion Hs; subst; eauto.
  Qed.
  Lemma twfs_cut l1 : forall l2 ts1 ts2, length ts1 = length l1 -> twfs tix G w (l1 ++ l2) (ts1 ++ ts2) -> twfs tix G w l1 ts1 /\ twfs tix G w l2 ts2.
  Proof.
    induction l1 as [|X l1 IH]; intros l2 [|t ts1] ts2 Hl H; simpl in *; try discriminate; [split; [constructor|auto]|].
    inversion H; subst. destruct (IH l2 ts1 ts2) as [A B]; auto. split; [constructor|]; auto.
  Qed.
  Lemma twfs_snoc_inv l X ts : twfs tix G w (l ++ [X]) ts -> exists ts1 t, ts = ts1 ++ [t] /\ twfs tix G w l ts1 /\ twf tix G w X t.
  Proof.
    revert ts. induction l as [|Y l IH]; intros ts H; simpl in H; inversion H as [|Y' l' t ts' H1 H2]; subst.
    - inversion H2; subst. exists [], t. auto.
    - destruct (IH _ H2) as (ts1 & u & -> & A & B). exists (t :: ts1), u. split; auto. split; [constructor|]; auto.
  Qed.
  Lemma twfs_join l1 l2 ts1 ts2 : twfs tix G w l1 ts1 -> twfs tix G w l2 ts2 -> twfs tix G w (l1 ++ l2) (ts1 ++ ts2).
  Proof. induction 1; simpl; auto. intros. constructor; auto. Qed.
  Lemma twf_node_inv k r ts X : nth_error G k = Some r -> twf tix G w X (Node k ts) -> X = NT (r_lhs r) /\ twfs tix G w (r_rhs r) ts.
  Proof. intros Hr H. inversion H as [| |k0 r0 ts0 Hr0 Hs]; subst. assert (r0 = r) by congruence. subst. auto. Qed.
  Lemma better_at p k a b m1 m2 : m1 = p ++ Shift1 :: a -> m2 = p ++ Reduce1 k :: b -> better m1 m2.
  Proof. intros -> ->. pose proof (better_ctx p _ _ [] [] (better_shift k a b)) as H. rewrite !app_nil_r in H. exact H. Qed.
End Shapes.
Ltac mv := do 6 (rewrite ?flat_map_app; rewrite <- ?app_assoc; cbn [moves leaves flat_map app]); rewrite ?app_nil_r; reflexivity.

(** ** C70 *)
Theorem C70_preferred_tree : forall N T E (nix : N -> nat) (tix : T -> nat) e (s : syntax N T E) P ws w fuel v,
  api_syntax nix tix s -> makes e s P ws -> parse tix P fuel w = Ok (ROk v) -> error_free s \/ parse_errors tix P fuel w = [] ->
  exists t, proper_tree tix s w t /\ ev (gens s) w t = GOk (NonTerminal v) /\
    forall t', proper_tree tix s w t' -> t' = t \/ preferred (moves t) (moves t').
Proof.
  intros N T E nix tix e s P ws w fuel v Ha Hmk Hp He. destruct (makes_made nix tix e s P ws Ha Hmk) as [ss Hm].
  exact (choice_top tix s P ws ss w Hm fuel v Hp He).
Qed.
Print Assumptions C70_preferred_tree.

(** what this means for the usual ambiguous rules *)
Theorem C70_usual_conflicts : forall N T E (nix : N -> nat) (tix : T -> nat) e (s : syntax N T E) P ws w fuel v,
  api_syntax nix tix s -> makes e s P ws -> parse tix P fuel w = Ok (ROk v) -> error_free s \/ parse_errors tix P fuel w = [] ->
  exists t, proper_tree tix s w t /\ ev (gens s) w t = GOk (NonTerminal v) /\
    (** operators A ::= ... A and A ::= A b ... group to the right, whatever the order of the rules: no application of the
        first is the first operand of the second *)
    (forall k1 k2 A b l1 l2 ts1 ts2, nth_error (gram s) k1 = Some (mk_rule A (l1 ++ [NT A])) -> nth_error (gram s) k2 = Some (mk_rule A (NT A :: TM b :: l2)) ->
      ~ occurs (Node k2 (Node k1 ts1 :: ts2)) t) /\
    (** with A ::= l A (if-then) and A ::= l A b ... (if-then-else), the b goes to the nearest *)
    (forall k1 k2 A b l l2 ts ts1 ts2, nth_error (gram s) k1 = Some (mk_rule A (l ++ [NT A])) -> nth_error (gram s) k2 = Some (mk_rule A (l ++ NT A :: TM b :: l2)) ->
      length ts = length l -> ~ occurs (Node k2 (ts ++ Node k1 ts1 :: ts2)) t) /\
    (** of two equal rules the later is never applied *)
    (forall k1 k2 r ts, k1 < k2 -> nth_error (gram s) k1 = Some r -> nth_error (gram s) k2 = Some r -> ~ occurs (Node k2 ts) t).
Proof.
  intros N T E nix tix e s P ws w fuel v Ha Hmk Hp He. destruct (C70_preferred_tree _ _ _ nix tix e s P ws w fuel v Ha Hmk Hp He) as (t & Ht & Hv & Hpr).
  exists t. split; auto. split; auto. destruct Ht as [[Ht Hl] Hc]. assert (Ht0 : proper_tree tix s w t) by (split; [split|]; auto). split; [|split].
  - intros k1 k2 A b l1 l2 ts1 ts2 H1 H2 Ho. destruct (occurs_twf tix (gram s) w _ t _ Ho Ht Hc) as (Y & HY & Hcu).
    destruct (twf_node_inv tix (gram s) w k2 _ _ Y H2 HY) as [-> Hu]. simpl in Hu. inversion Hu as [|X l n ts Hn Hr]; subst. inversion Hr as [|X l j rest Hj Hrest]; subst.
    destruct (twf_node_inv tix (gram s) w k1 _ _ _ H1 Hn) as [_ Hn1]. cbn [r_rhs] in Hn1. apply twfs_snoc_inv in Hn1 as (a & y & -> & Ha1 & Hy).
    assert (Ej : exists i, j = Leaf i). { cbn [clean forallb] in Hcu. rewrite !andb_true_iff in Hcu. inversion Hj; subst; eauto. destruct Hcu as (_ & Hcu & _). discriminate. }
    destruct Ej as [i ->].
    refine (occurs_not tix s w t _ (Node k1 (a ++ [Node k2 (y :: Leaf i :: rest)])) Ht0 Hpr _ _ _ _ Ho).
    + intros X HX. destruct (twf_node_inv tix (gram s) w k2 _ _ X H2 HX) as [-> _]. change (NT (r_lhs (mk_rule A (NT A :: TM b :: l2)))) with (NT (r_lhs (mk_rule A (l1 ++ [NT A])))).
      econstructor; [exact H1|]. cbn [r_rhs]. apply twfs_join; auto. constructor; [|constructor]. change (NT A) with (NT (r_lhs (mk_rule A (NT A :: TM b :: l2)))).
      econstructor; [exact H2|]. cbn [r_rhs]. constructor; [auto|]. constructor; auto.
    + mv.
    + simpl. rewrite !forallb_app. simpl. rewrite !andb_true_r, !andb_assoc. reflexivity.
    + apply (better_at (flat_map moves a ++ moves y) k1 (flat_map moves rest ++ [Reduce1 k2; Reduce1 k1]) (Shift1 :: flat_map moves rest ++ [Reduce1 k2])).
      * mv.
      * mv.
  - intros k1 k2 A b l l2 ts ts1 ts2 H1 H2 Hlen Ho. destruct (occurs_twf tix (gram s) w _ t _ Ho Ht Hc) as (Y & HY & Hcu).
    destruct (twf_node_inv tix (gram s) w k2 _ _ Y H2 HY) as [-> Hu]. cbn [r_rhs] in Hu. apply twfs_cut in Hu as [Hts Hu]; auto.
    inversion Hu as [|X l0 n ts0 Hn Hr]; subst. inversion Hr as [|X l0 j rest Hj Hrest]; subst.
    destruct (twf_node_inv tix (gram s) w k1 _ _ _ H1 Hn) as [_ Hn1]. cbn [r_rhs] in Hn1. apply twfs_snoc_inv in Hn1 as (a & y & -> & Ha1 & Hy).
    assert (Ej : exists i, j = Leaf i). { cbn [clean] in Hcu. rewrite forallb_app in Hcu. cbn [forallb] in Hcu. rewrite !andb_true_iff in Hcu. inversion Hj; subst; eauto. destruct Hcu as (_ & _ & Hcu & _). discriminate. }
    destruct Ej as [i ->].
    refine (occurs_not tix s w t _ (Node k1 (ts ++ [Node k2 (a ++ y :: Leaf i :: rest)])) Ht0 Hpr _ _ _ _ Ho).
    + intros X HX. destruct (twf_node_inv tix (gram s) w k2 _ _ X H2 HX) as [-> _]. change (NT (r_lhs (mk_rule A (l ++ NT A :: TM b :: l2)))) with (NT (r_lhs (mk_rule A (l ++ [NT A])))).
      econstructor; [exact H1|]. cbn [r_rhs]. apply twfs_join; auto. constructor; [|constructor]. change (NT A) with (NT (r_lhs (mk_rule A (l ++ NT A :: TM b :: l2)))).
      econstructor; [exact H2|]. cbn [r_rhs]. apply twfs_join; auto. constructor; [auto|]. constructor; auto.
    + mv.
    + cbn [clean]. rewrite !forallb_app. cbn [clean forallb]. rewrite !forallb_app. cbn [clean forallb]. rewrite ?andb_true_r, ?andb_assoc. reflexivity.
    + apply (better_at (flat_map moves ts ++ flat_map moves a ++ moves y) k1 (flat_map moves rest ++ [Reduce1 k2; Reduce1 k1]) (Shift1 :: flat_map moves rest ++ [Reduce1 k2])).
      * mv.
      * mv.
  - intros k1 k2 r ts Hk H1 H2 Ho.
    refine (occurs_not tix s w t (Node k2 ts) (Node k1 ts) Ht0 Hpr _ eq_refl eq_refl _ Ho).
    + intros X HX. destruct (twf_node_inv tix (gram s) w k2 _ _ X H2 HX) as [-> Hs]. econstructor; eauto.
    + cbn [moves]. apply (better_ctx (flat_map moves ts) [Reduce1 k1] [Reduce1 k2] [] []). apply better_rule. auto.
Qed.
Print Assumptions C70_usual_conflicts.

(** ** A case: E ::= E + E | id and the two kinds of if, both with warnings.  The operator is not associative, so that the grouping shows in the value. *)
Definition r_op : reducer nat tk nat := fun l => match l with [NonTerminal a; Terminal _; NonTerminal b] => GOk (a + 10 * b) | _ => GPanic end.
Definition r_if : reducer nat tk nat := fun l => match l with [Terminal _; NonTerminal a] => GOk (1 + a) | _ => GPanic end.
Definition r_ifelse : reducer nat tk nat := fun l => match l with [Terminal _; NonTerminal a; Terminal _; NonTerminal b] => GOk (a + 10 * b) | _ => GPanic end.
Definition g_amb : stx := mk_syntax [rule_new_raw 0 [NT' 0; TM' kPlus; NT' 0] r_op; rule_new_raw 0 [TM' kId] r_id;
  rule_new_raw 0 [TM' kL; NT' 0] r_if; rule_new_raw 0 [TM' kL; NT' 0; TM' kR; NT' 0] r_ifelse; rule_new_raw 0 [TM' kId] r_id] 0.
Definition P_amb : prs := Eval vm_compute in fst (build env0 g_amb).
Definition ws_amb : list warning := Eval vm_compute in snd (build env0 g_amb).
Definition w_sum : list tk := [(kId, 1); (kPlus, 0); (kId, 2); (kPlus, 0); (kId, 3)].
Definition w_else : list tk := [(kL, 0); (kL, 0); (kId, 2); (kR, 0); (kId, 3)].
Definition id1 i := Node 1 [Leaf i].
Example C70_example : api_syntax nix0 tkix g_amb /\ makes env0 g_amb P_amb ws_amb /\ ws_amb <> [] /\ error_free g_amb /\
  parse tkix P_amb 100 w_sum = Ok (ROk (1 + 10 * (2 + 10 * 3))) /\
  proper_tree tkix g_amb w_sum (Node 0 [Node 0 [id1 0; Leaf 1; id1 2]; Leaf 3; id1 4]) /\
  proper_tree tkix g_amb w_sum (Node 0 [id1 0; Leaf 1; Node 0 [id1 2; Leaf 3; id1 4]]) /\
  parse tkix P_amb 100 w_else = Ok (ROk (1 + (2 + 10 * 3))) /\
  proper_tree tkix g_amb w_else (Node 3 [Leaf 0; Node 2 [Leaf 1; id1 2]; Leaf 3; id1 4]) /\
  proper_tree tkix g_amb w_else (Node 2 [Leaf 0; Node 3 [Leaf 1; id1 2; Leaf 3; id1 4]]).
Proof.
  split; [raw|]. split; [split; [apply env0_ok|]; exists 100; vm_compute; reflexivity|]. split; [discriminate|]. split.
  { intros r H. simpl in H. repeat destruct H as [<-|H]; simpl; intuition discriminate. }
  repeat split; try (vm_compute; reflexivity); apply tcheck_ok; vm_compute; reflexivity.
Qed.

(** the choice is made without looking further: a derivable input can be refused because of it.
    S ::= A b c | a b d, A ::= a on a b c: after a, the b is taken *)
Definition g_rej : stx := mk_syntax [rule_new_raw 0 [NT' 1; TM' 1; TM' 2] r_any; rule_new_raw 0 [TM' 0; TM' 1; TM' 3] r_any; rule_new_raw 1 [TM' 0] r_any] 0.
Definition P_rej : prs := Eval vm_compute in fst (build env0 g_rej).
Theorem C70_conflicts_reject : exists (s : stx) P ws w t, api_syntax nix0 tkix s /\ makes env0 s P ws /\ length ws = 1 /\ error_free s /\
  proper_tree tkix s w t /\ returns tkix P w RNotFound.
Proof.
  exists g_rej, P_rej, (snd (build env0 g_rej)), [(0, 0); (1, 0); (2, 0)], (Node 0 [Node 2 [Leaf 0]; Leaf 1; Leaf 2]). split; [raw|]. split; [mk|]. split; [reflexivity|]. split.
  { intros r H. simpl in H. repeat destruct H as [<-|H]; simpl; intuition discriminate. }
  split; [apply tree_check_ok; vm_compute; reflexivity|]. exists 100. vm_compute. reflexivity.
Qed.
Print Assumptions C70_conflicts_reject.
