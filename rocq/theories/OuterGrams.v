(** * Two grammars that use a token for an item: statement lists and separated lists, under any numbers *)
From Coq Require Import List Arith Lia Bool Permutation.
From Verif Require Import Lib Grammar LrModel LrSpec LrNew LrTop ParseModel Trees ParseSpec GramFacts ParseInv ParseComplete ParseTop ParseExamples PropParse PropRecover ProdCheck NumSpec PropNum StmtSpec PropStmt NestSpec.
Import ListNotations.

Definition numbers (a b : nat) (k : bool) : nat := if k then a else b.
Definition const {A} (n : nat) (_ : A) : nat := n.
Lemma numbers_classes a b a' b' : a <> b -> a' <> b' -> same_classes (numbers a b) (numbers a' b').
Proof. intros H H' [] []; simpl; split; intros E; auto; try congruence; exfalso; congruence. Qed.
Lemma const_classes {A} n n' : same_classes (@const A n) (const n').
Proof. intros a b. unfold const. tauto. Qed.

Definition orule := (unit * list (symbol unit bool unit) * reducer unit bool unit)%type.
Definition onop : reducer unit bool unit := fun _ => GOk tt.
(** R ::= x ; R | error ; R | (nothing) *)
Definition o_stmt : list orule := [ (tt, [Terminal true; Terminal false; NonTerminal tt], onop); (tt, [ErrorSym tt; Terminal false; NonTerminal tt], onop); (tt, [], onop) ].
(** L ::= x | L sep x *)
Definition o_list : list orule := [ (tt, [Terminal true], onop); (tt, [NonTerminal tt; Terminal false; Terminal true], onop) ].

Lemma coded_api {N T E} (nix : N -> nat) (tix : T -> nat) st (rules : list (N * list (symbol N T unit) * reducer N T E)) : api_syntax nix tix (coded nix tix st rules).
Proof. unfold api_syntax, coded. simpl. apply Forall_forall. intros c Hc. apply in_map_iff in Hc as (r & <- & _). constructor. Qed.

Lemma outer_made (rules : list orule) (R a b : nat) : a <> b -> rules <> [] ->
  (exists P, makes env0 (coded (const 0) (numbers 0 1) tt rules) P []) -> exists P, makes env0 (coded (const R) (numbers a b) tt rules) P [].
Proof.
  intros Hab Hne [P HP]. assert (Hn : same_classes (@const unit 0) (const R)) by apply const_classes. assert (Ht : same_classes (numbers 0 1) (numbers a b)) by (apply numbers_classes; auto).
  destruct (proj1 (C75_builds _ _ _ (const 0) (const R) _ _ env0 env0 tt rules Hn Ht env0_ok env0_ok ltac:(destruct rules as [|r rules]; [congruence|exists r; split; [left; auto|destruct r as [[[] ?] ?]; reflexivity]]))) as (P' & ws & HP'); eauto.
  destruct (C75_numbering _ _ _ (const 0) (const R) _ _ env0 env0 tt rules P P' [] ws Hn Ht HP HP') as [Hsh _]. simpl in Hsh. apply Permutation_nil in Hsh. destruct ws; [eauto|discriminate].
Qed.

Lemma ders_tm rs t l w : ders rs (TM t :: l) w -> exists z, w = t :: z /\ ders rs l z.
Proof. intros H. inversion H as [|? ? u z A1 A2 E1 E2]. subst. inversion A1; subst. exists z. auto. Qed.

(** between two symbols that may begin or end with [x] there is a token *)
Definition is_sep (x : nat) (Y : sym) : Prop := exists t, Y = TM t /\ t <> TSym x.
Fixpoint separated (x : nat) (l : list sym) : Prop :=
  match l with Y :: ((Z :: _) as l') => (is_sep x Y \/ is_sep x Z) /\ separated x l' | _ => True end.
Lemma separated_twice rs A x : Forall (fun r => separated x (r_rhs r)) rs -> never_twice rs A x.
Proof.
  intros Hrs. rewrite Forall_forall in Hrs.
  assert (Hd : (forall Y w, der rs Y w -> forall u v, w <> u ++ TSym x :: TSym x :: v) /\ (forall l w, ders rs l w -> separated x l -> forall u v, w <> u ++ TSym x :: TSym x :: v)).
  { apply der_ders_ind.
    - intros t [|? [|? ?]] v; discriminate.
    - intros r w Hr _ IH. auto.
    - intros _ [|? ?] v; discriminate.
    - intros Y l u v Hu IH1 Hv IH2 Hs u' v' E0. assert (Hs' : separated x l) by (destruct l; [exact I|apply Hs]).
      apply app_eq_app in E0 as [q [[E1 E2]|[E1 E2]]].
      + destruct q as [|a [|a' q]]; simpl in E2.
        * subst v. apply (IH2 Hs' [] v'). auto.
        * injection E2 as <- E2. destruct l as [|Z l]; [inversion Hv; subst; discriminate|]. destruct (proj1 Hs) as [(t & -> & Ht)|(t & -> & Ht)].
          -- inversion Hu; subst. destruct u'; simpl in *; [congruence|destruct u'; discriminate].
          -- apply ders_tm in Hv as (z & -> & _). congruence.
        * injection E2 as <- <- E2. apply (IH1 u' q). auto.
      + apply (IH2 Hs' q v'). auto. }
  intros u v H. eapply (proj1 Hd); eauto.
Qed.

Section Outer.
  Variables (R x b : nat).
  Hypothesis Hx : x <> b.
  Definition g_stmt : syntax unit bool unit := coded (const R) (numbers x b) tt o_stmt.
  Definition g_list : syntax unit bool unit := coded (const R) (numbers x b) tt o_list.
  Lemma g_stmt_made : exists P, makes env0 g_stmt P [].
  Proof. apply outer_made; auto; [discriminate|]. eexists. split; [apply env0_ok|]. exists 1000. vm_compute. reflexivity. Qed.
  Lemma g_list_made : exists P, makes env0 g_list P [].
  Proof. apply outer_made; auto; [discriminate|]. eexists. split; [apply env0_ok|]. exists 1000. vm_compute. reflexivity. Qed.
  Lemma g_stmt_gram : gram g_stmt = [ mk_rule R [TM (TSym x); TM (TSym b); NT R]; mk_rule R [TM TErr; TM (TSym b); NT R]; mk_rule R [] ].
  Proof. reflexivity. Qed.
  Lemma g_list_gram : gram g_list = [ mk_rule R [TM (TSym x)]; mk_rule R [NT R; TM (TSym b); TM (TSym x)] ].
  Proof. reflexivity. Qed.

  Lemma g_stmt_prod : productive (gram g_stmt).
  Proof.
    rewrite g_stmt_gram. assert (HR : der (gram g_stmt) (NT R) []). { rewrite g_stmt_gram. change (NT R) with (NT (r_lhs (mk_rule R []))). constructor; [simpl; auto|constructor]. }
    rewrite g_stmt_gram in HR. intros r Y Hr HY. repeat destruct Hr as [<-|Hr]; try destruct Hr; simpl in HY; repeat destruct HY as [<-|HY]; try destruct HY; eauto; eexists; constructor.
  Qed.
  Lemma g_list_prod : productive (gram g_list).
  Proof.
    assert (HR : der (gram g_list) (NT R) ([TSym x] ++ [])). { rewrite g_list_gram. change (NT R) with (NT (r_lhs (mk_rule R [TM (TSym x)]))). constructor; [simpl; auto|]. constructor; constructor. }
    rewrite g_list_gram in *. intros r Y Hr HY. repeat destruct Hr as [<-|Hr]; try destruct Hr; simpl in HY; repeat destruct HY as [<-|HY]; try destruct HY; eauto; eexists; constructor.
  Qed.

  Lemma g_stmt_twice : never_twice (gram g_stmt) R x.
  Proof. apply separated_twice. rewrite g_stmt_gram. repeat apply Forall_cons; try apply Forall_nil; simpl; repeat split; auto; first [left; exists (TSym b); split; congruence|right; exists (TSym b); split; congruence]. Qed.
  Lemma g_list_twice : never_twice (gram g_list) R x.
  Proof. apply separated_twice. rewrite g_list_gram. repeat apply Forall_cons; try apply Forall_nil; simpl; repeat split; auto; first [left; exists (TSym b); split; congruence|right; exists (TSym b); split; congruence]. Qed.
End Outer.

(** a number that is no token of the grammar *)
Lemma fresh_token rs b : exists x, x <> b /\ ~ has_terminal rs (TSym x).
Proof.
  set (num := fun Y => match Y with TM (TSym t) => t | _ => 0 end). set (l := b :: flat_map (fun r => map num (r_rhs r)) rs).
  exists (S (list_max l)). assert (Hm : forall y, In y l -> y <= list_max l). { intros y Hy. pose proof (proj1 (list_max_le l (list_max l)) (le_n _)) as F. rewrite Forall_forall in F. auto. }
  split.
  - specialize (Hm b (or_introl eq_refl)). lia.
  - intros (r & Hr & Hi). assert (Hy : In (S (list_max l)) l); [|apply Hm in Hy; lia]. right. apply in_flat_map. exists r. split; auto. apply in_map_iff. exists (TM (TSym (S (list_max l)))). auto.
Qed.

(** the symbols of two grammars, compared *)
Definition symbols (rs : list rule) : list sym := flat_map (fun r => NT (r_lhs r) :: r_rhs r) rs.
Definition sym_same (Y Z : sym) : bool := match Y, Z with NT A, NT B => Nat.eqb A B | TM (TSym a), TM (TSym b) => Nat.eqb a b | TM TErr, TM TErr => true | TM TEoi, TM TEoi => true | _, _ => false end.
Definition disjoint_check (rs1 rs2 : list rule) : bool := forallb (fun Y => negb (existsb (sym_same Y) (symbols rs2))) (symbols rs1).
Lemma sym_same_refl Y : sym_same Y Y = true.
Proof. destruct Y as [A|[t| |]]; simpl; auto using Nat.eqb_refl. Qed.
Lemma disjoint_check_ok rs1 rs2 : disjoint_check rs1 rs2 = true -> disjoint_grammars rs1 rs2.
Proof.
  intros H. unfold disjoint_check in H. rewrite forallb_forall in H.
  assert (Hno : forall Y, In Y (symbols rs1) -> In Y (symbols rs2) -> False).
  { intros Y H1 H2. specialize (H Y H1). apply negb_true_iff in H. assert (Ht : existsb (sym_same Y) (symbols rs2) = true) by (apply existsb_exists; exists Y; split; auto; apply sym_same_refl). congruence. }
  assert (Hnt : forall rs A, has_nonterminal rs A -> In (NT A) (symbols rs)) by (intros rs A (r & Hr & HA); apply in_flat_map; exists r; split; auto; destruct HA as [<-|HA]; simpl; auto).
  assert (Htm : forall rs t, has_terminal rs t -> In (TM t) (symbols rs)) by (intros rs t (r & Hr & HA); apply in_flat_map; exists r; simpl; auto).
  split; intros z H1 H2; eapply Hno; eauto.
Qed.
