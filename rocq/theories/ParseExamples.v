(** * Concrete grammars for the examples and the refutations *)
From Coq Require Import List Arith Bool Sorted Permutation.
From Verif Require Import Lib Grammar LrModel LrTop ParseModel Trees ParseSpec.
Import ListNotations.

(** tokens: a class and a value; nonterminal values and user errors are numbers *)
Definition tk : Type := (nat * nat)%type.
Definition tkix (x : tk) : nat := fst x.
Definition nix0 (n : nat) : nat := n.
Definition stx := syntax nat tk nat.
Definition prs := parser nat tk nat.

Definition env0 : lr_env := mk_lr_env (fun l => l) (fun l => l) (fun l => l).
Lemma env0_ok : lr_env_ok env0.
Proof. repeat split; intros; apply Permutation_refl. Qed.
(** another iteration order *)
Definition env1 : lr_env := mk_lr_env (@rev _) (@rev _) (@rev _).
Lemma env1_ok : lr_env_ok env1.
Proof. repeat split; intros; apply Permutation_rev. Qed.

Definition build (e : lr_env) (s : stx) : prs * list warning :=
  match lr1_new e 100 s with Ok r => r | _ => (mk_lr1 (mk_parser [] [] [] [] 0) [], []) end.
Lemma build_makes e s : lr_env_ok e -> lr1_new e 100 s = Ok (build e s) -> makes e s (fst (build e s)) (snd (build e s)).
Proof. intros He H. split; auto. exists 100. rewrite H. destruct (build e s); reflexivity. Qed.

(** ** E ::= E + T | T;  T ::= ( E ) | id  with the sum as value; an id whose value is 13 is refused *)
Definition r_sum : reducer nat tk nat := fun l => match l with [NonTerminal a; Terminal _; NonTerminal b] => GOk (a + b) | _ => GPanic end.
Definition r_one : reducer nat tk nat := fun l => match l with [NonTerminal a] => GOk a | _ => GPanic end.
Definition r_paren : reducer nat tk nat := fun l => match l with [Terminal _; NonTerminal a; Terminal _] => GOk a | _ => GPanic end.
Definition r_id : reducer nat tk nat := fun l => match l with [Terminal x] => GOk (snd x) | _ => GPanic end.
Definition r_id13 : reducer nat tk nat := fun l => match l with [Terminal x] => if snd x =? 13 then GErr 77 else GOk (snd x) | _ => GPanic end.
Definition nE := 0. Definition nT := 1.
Definition kId := 0. Definition kPlus := 1. Definition kL := 2. Definition kR := 3. Definition kSemi := 4.
Definition NT' (n : nat) : symbol nat nat unit := NonTerminal n.
Definition TM' (n : nat) : symbol nat nat unit := Terminal n.
Definition ER' : symbol nat nat unit := ErrorSym tt.
Definition expr_with (rid : reducer nat tk nat) : stx := mk_syntax
  [ rule_new_raw nE [NT' nE; TM' kPlus; NT' nT] r_sum;
    rule_new nix0 tkix nE [NonTerminal nT] r_one;
    rb_build (rb_terminal tkix (rb_non_terminal nix0 (rb_terminal tkix (rb_new nix0 nT) (kL, 0)) nE) (kR, 0)) r_paren;
    rule_new_raw nT [TM' kId] rid ] nE.
Definition expr : stx := expr_with r_id.
Definition expr13 : stx := expr_with r_id13.
Definition w_expr : list tk := [(kId, 1); (kPlus, 0); (kL, 0); (kId, 2); (kPlus, 0); (kId, 3); (kR, 0)].
Definition w_expr13 : list tk := [(kId, 1); (kPlus, 0); (kL, 0); (kId, 13); (kPlus, 0); (kId, 3); (kR, 0)].
Definition w_bad : list tk := [(kId, 1); (kPlus, 0); (kPlus, 0); (kId, 2)].
Definition P_expr : prs := fst (build env0 expr).
Definition P_expr13 : prs := fst (build env0 expr13).

Lemma expr_api rid : api_syntax nix0 tkix (expr_with rid).
Proof.
  unfold api_syntax, expr_with. cbn [sx_rules]. repeat apply Forall_cons; try apply Forall_nil; constructor.
  apply made_t, made_nt, made_t, made_new.
Qed.
Lemma expr_makes : makes env0 expr P_expr [].
Proof. apply (build_makes env0 expr env0_ok). vm_compute. reflexivity. Qed.
Lemma expr13_makes : makes env0 expr13 P_expr13 [].
Proof. apply (build_makes env0 expr13 env0_ok). vm_compute. reflexivity. Qed.
Lemma expr_free rid : error_free (expr_with rid).
Proof. intros r H. simpl in H. repeat destruct H as [<-|H]; simpl; intuition discriminate. Qed.

(** the tree of w_expr *)
Definition t_id i := Node 3 [Leaf i].
Definition t_expr : tree := Node 0 [Node 1 [t_id 0]; Leaf 1; Node 2 [Leaf 2; Node 0 [Node 1 [t_id 3]; Leaf 4; t_id 5]; Leaf 6]].
(** a checker for trees *)
Section Check.
  Context {T : Type} (tix : T -> nat) (rs : list rule) (w : list T).
  Fixpoint tcheck (X : sym) (t : tree) : bool :=
    match t with
    | Leaf i => match nth_error w i with Some x => eqb X (TM (TSym (tix x))) | None => false end
    | Bad lo hi => andb (eqb X (TM TErr)) (andb (lo <=? hi) (hi <? length w))
    | Node k ts => match nth_error rs k with
                   | Some r => andb (eqb X (NT (r_lhs r)))
                       ((fix go (l : list sym) (ts : list tree) {struct ts} : bool := match l, ts with [], [] => true | Y :: l', u :: ts' => andb (tcheck Y u) (go l' ts') | _, _ => false end) (r_rhs r) ts)
                   | None => false end
    end.
  Lemma tcheck_ok t : forall X, tcheck X t = true -> twf tix rs w X t.
  Proof.
    induction t as [i|lo hi|k ts IH] using tree_ind'; intros X H; cbn [tcheck] in H.
    - destruct (nth_error w i) eqn:E0; [|discriminate]. apply eqb_eq in H. subst X. constructor. auto.
    - apply andb_true_iff in H as [H1 H2]. apply andb_true_iff in H2 as [H2 H3]. apply eqb_eq in H1. subst X.
      apply Nat.leb_le in H2. apply Nat.ltb_lt in H3. constructor; auto.
    - destruct (nth_error rs k) as [r|] eqn:E0; [|discriminate]. apply andb_true_iff in H as [H1 H2]. apply eqb_eq in H1. subst X.
      constructor; auto. clear E0. revert H2. generalize (r_rhs r). induction IH as [|t ts Ht _ IHts]; intros [|Y l] H; try discriminate; [constructor|].
      apply andb_true_iff in H as [H1 H2]. constructor; auto.
  Qed.
End Check.
Definition tree_check (s : stx) (w : list tk) (t : tree) : bool :=
  tcheck tkix (gram s) w (NT (sx_start s)) t && list_eqb (leaves t) (seq 0 (length w)) && clean t.
Lemma tree_check_ok s w t : tree_check s w t = true -> proper_tree tkix s w t.
Proof.
  unfold tree_check. rewrite !andb_true_iff. intros [[H1 H2] H3]. split; auto. split; [apply tcheck_ok; auto|apply list_eqb_eq; auto].
Qed.
Lemma t_expr_tree rid : proper_tree tkix (expr_with rid) w_expr t_expr.
Proof. apply tree_check_ok. vm_compute. reflexivity. Qed.
Lemma t_expr_tree13 rid : proper_tree tkix (expr_with rid) w_expr13 t_expr.
Proof. apply tree_check_ok. vm_compute. reflexivity. Qed.
Lemma expr_shapes w r args : In r (sx_rules expr) -> good_args tkix w (r_rhs (cr_rule r)) args -> exists v, cr_gen r args = GOk v.
Proof.
  intros Hr (Hf & _). simpl in Hr. repeat destruct Hr as [<-|Hr]; try destruct Hr; simpl in *.
  all: repeat match goal with H : Forall2 _ (_ :: _) _ |- _ => inversion H; clear H; subst | H : Forall2 _ [] _ |- _ => inversion H; clear H; subst
    | H : fits _ _ ?a |- _ => destruct a; simpl in H; try contradiction end.
  all: simpl; eexists; reflexivity.
Qed.
Lemma expr_total w : total_on tkix expr w.
Proof. exists (fun _ _ => True). intros r args Hr Hg _. destruct (expr_shapes w r args Hr Hg) as [v Hv]. eauto. Qed.

(** ** Statements: P ::= P St | St;  St ::= E ; | error ;  and E, T as above.  A skipped statement counts
    100 for every token in the error slice. *)
Definition nP := 2. Definition nSt := 3.
Definition r_add : reducer nat tk nat := fun l => match l with [NonTerminal a; NonTerminal b] => GOk (a + b) | _ => GPanic end.
Definition r_stmt : reducer nat tk nat := fun l => match l with [NonTerminal a; Terminal _] => GOk a | _ => GPanic end.
Definition r_skip : reducer nat tk nat := fun l => match l with [ErrorSym l; Terminal _] => GOk (100 * length l) | _ => GPanic end.
Definition stmts_plain : list (crule nat tk nat) := [
  rule_new_raw nP [NT' nP; NT' nSt] r_add;
  rule_new_raw nP [NT' nSt] r_one;
  rule_new_raw nSt [NT' nE; TM' kSemi] r_stmt;
  rule_new_raw nE [NT' nE; TM' kPlus; NT' nT] r_sum;
  rule_new_raw nE [NT' nT] r_one;
  rule_new_raw nT [TM' kL; NT' nE; TM' kR] r_paren;
  rule_new_raw nT [TM' kId] r_id ].
Definition stmts0 : stx := mk_syntax stmts_plain nP.
Definition stmts : stx := mk_syntax (stmts_plain ++ [rule_new_raw nSt [ER'; TM' kSemi] r_skip]) nP.
Definition P_stmts : prs := Eval vm_compute in fst (build env0 stmts).
Definition P_stmts0 : prs := Eval vm_compute in fst (build env0 stmts0).
Lemma stmts_makes : makes env0 stmts P_stmts [].
Proof. split; [apply env0_ok|]. exists 100. vm_compute. reflexivity. Qed.
Lemma stmts0_makes : makes env0 stmts0 P_stmts0 [].
Proof. split; [apply env0_ok|]. exists 100. vm_compute. reflexivity. Qed.
(** 1 + 2 ; 4 + + 9 ; 3 ; *)
Definition w_rec : list tk := [(kId, 1); (kPlus, 0); (kId, 2); (kSemi, 0); (kId, 4); (kPlus, 0); (kPlus, 0); (kId, 9); (kSemi, 0); (kId, 3); (kSemi, 0)].
(** 1 + 2 ; 3 ; *)
Definition w_stmts : list tk := [(kId, 1); (kPlus, 0); (kId, 2); (kSemi, 0); (kId, 3); (kSemi, 0)].
Definition t_num i := Node 6 [Leaf i].
Definition t_stmts : tree := Node 0 [Node 1 [Node 2 [Node 3 [Node 4 [t_num 0]; Leaf 1; t_num 2]; Leaf 3]]; Node 2 [Node 4 [t_num 4]; Leaf 5]].
Lemma t_stmts_tree : proper_tree tkix stmts w_stmts t_stmts.
Proof. apply tree_check_ok. vm_compute. reflexivity. Qed.
Lemma t_stmts0_tree : proper_tree tkix stmts0 w_stmts t_stmts.
Proof. apply tree_check_ok. vm_compute. reflexivity. Qed.
Lemma raw_api (s : stx) : Forall (fun r => exists a l g, r = rule_new_raw a l g) (sx_rules s) -> api_syntax nix0 tkix s.
Proof. intros H. eapply Forall_impl; [|exact H]. intros r (a & l & g & ->). constructor. Qed.
Ltac raw := apply raw_api; repeat apply Forall_cons; try apply Forall_nil; do 3 eexists; reflexivity.
Ltac mk := split; [apply env0_ok|]; exists 100; vm_compute; reflexivity.
Lemma stmts_api : api_syntax nix0 tkix stmts.
Proof. raw. Qed.
Lemma stmts0_api : api_syntax nix0 tkix stmts0.
Proof. raw. Qed.
