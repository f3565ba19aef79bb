(** * How much [parse] keeps on its stack.  C95.
    Left recursion, also with error recovery, needs a stack of a fixed size; right recursion and brackets need a stack that grows
    with the input; the rules tell which (DepthSpec.v). *)
From Coq Require Import List Arith Lia Bool.
From Verif Require Import Lib Grammar LrModel LrSpec LrSets LrStates LrNew LrTop ParseModel Trees ParseSpec ParseInv ParseComplete GramFacts ParseTerm ParseTop ParseMore RuleMap ParseExamples PropParse PropLin DepthSpec DepthProofs.
Import ListNotations.

(** C95: if no nonterminal comes up inside itself behind something, the stack never holds more than so many entries as the longest
    right-hand side has symbols, times the number of nonterminals; on every input, at every moment, with or without warnings and
    error rules. *)
Theorem C95_bounded : forall N T E (nix : N -> nat) (tix : T -> nat) e (s : syntax N T E) P ws w st,
  api_syntax nix tix s -> makes e s P ws -> ~ piles_up (gram s) (sx_start s) -> turns tix P w st ->
  kept st <= Nat.max 1 (longest (gram s) * defined_count (gram s)).
Proof.
  intros N T E nix tix e s P ws w st Ha Hmk Hf Ht. destruct (makes_made nix tix e s P ws Ha Hmk) as [ss Hm]. eapply flat_kept; eauto.
Qed.
Print Assumptions C95_bounded.

(** Otherwise it grows as fast as the input: there are sentences of at most [c * (n + 1)] tokens on which it comes to [n] entries. *)
Theorem C95_grows : forall N T E (nix : N -> nat) (tix : T -> nat) e (s : syntax N T E) P,
  api_syntax nix tix s -> makes e s P [] -> error_free s -> productive (gram s) -> ~ cyclic (gram s) (sx_start s) ->
  (forall k r, In r (gram s) -> In (TM (TSym k)) (r_rhs r) -> exists x, tix x = k) -> (forall w, total_on tix s w) ->
  piles_up (gram s) (sx_start s) ->
  exists c, forall n, exists w st, derivable tix s w /\ length w <= c * (n + 1) /\ turns tix P w st /\ n <= kept st.
Proof.
  intros N T E nix tix e s P Ha Hmk He Hp Hc Htok Htot Hup. destruct (makes_made nix tix e s P [] Ha Hmk) as [ss Hm].
  eapply piles_grow; eauto. intros w Hd. eapply C22_complete; eauto.
Qed.
Print Assumptions C95_grows.

(** The two together: a bound exists exactly when nothing piles up. *)
Theorem C95_exactly : forall N T E (nix : N -> nat) (tix : T -> nat) e (s : syntax N T E) P,
  api_syntax nix tix s -> makes e s P [] -> error_free s -> productive (gram s) -> ~ cyclic (gram s) (sx_start s) ->
  (forall k r, In r (gram s) -> In (TM (TSym k)) (r_rhs r) -> exists x, tix x = k) -> (forall w, total_on tix s w) ->
  (exists K, forall w st, turns tix P w st -> kept st <= K) <-> ~ piles_up (gram s) (sx_start s).
Proof.
  intros N T E nix tix e s P Ha Hmk He Hp Hc Htok Htot. split.
  - intros [K HK] Hup. destruct (C95_grows N T E nix tix e s P Ha Hmk He Hp Hc Htok Htot Hup) as [c Hgr]. destruct (Hgr (S K)) as (w & st & _ & _ & Ht & Hk). specialize (HK _ _ Ht). lia.
  - intros Hf. eexists. intros w st Ht. eapply C95_bounded; eauto.
Qed.
Print Assumptions C95_exactly.

(** Without empty right-hand sides and error rules there are never more entries than tokens taken from the iterator so far. *)
Theorem C95_at_most_tokens : forall N T E (nix : N -> nat) (tix : T -> nat) e (s : syntax N T E) P ws w st,
  api_syntax nix tix s -> makes e s P ws -> error_free s -> (forall r, In r (gram s) -> r_rhs r <> []) -> turns tix P w st ->
  kept st <= length (ps_syms st) /\ length (ps_syms st) <= length w.
Proof.
  intros N T E nix tix e s P ws w st Ha Hmk He Hne Ht. destruct (makes_made nix tix e s P ws Ha Hmk) as [ss Hm]. split; [eapply solid_kept; eauto|].
  destruct (turns_inv tix s P ws ss w Hm st Ht) as (g & ts & pos & Hi). pose proof (f_equal (@length T) (inv_input _ _ _ _ _ _ _ _ _ _ Hi)) as Hl. rewrite app_length in Hl. lia.
Qed.
Print Assumptions C95_at_most_tokens.

(** A way to find out: numbers for the nonterminals that a program can check. *)
Theorem C95_certificate : forall rs rank start, flat_check rs rank = true -> ~ piles_up rs start.
Proof. intros rs rank start. apply flat_no_piles. Qed.
Print Assumptions C95_certificate.

(** ** Examples *)
(** the state after [n] turns *)
Fixpoint after (P : prs) (n : nat) (st : pstate nat tk) : option (pstate nat tk) :=
  match n with 0 => Some st | S n' => match parse_step tkix P st with inl st' => after P n' st' | inr _ => None end end.
Lemma after_turns P w n : forall st st', turns tkix P w st -> after P n st = Some st' -> turns tkix P w st'.
Proof.
  induction n as [|n IH]; intros st st' Ht H; cbn in H; [injection H as <-; auto|]. destruct (parse_step tkix P st) as [st1|] eqn:E; [|discriminate]. eapply IH; [eapply turns_step; eauto|exact H].
Qed.
Lemma after_init P w n st : after P n (ps_init P w) = Some st -> turns tkix P w st.
Proof. apply after_turns. constructor. Qed.
Ltac turn P w n := let st := fresh "st" in let E := fresh "E" in destruct (after P n (ps_init P w)) as [st|] eqn:E; [|vm_compute in E; discriminate]; exists st;
  split; [eapply after_init; exact E|]; vm_compute in E; injection E as <-; vm_compute; auto.

(** Statements with recovery: P ::= P St | St;  St ::= E ; | error ;  E ::= E + T | T;  T ::= id.  Nothing piles up; at most 12. *)
Definition flat : stx := mk_syntax [
  rule_new_raw nP [NT' nP; NT' nSt] r_add; rule_new_raw nP [NT' nSt] r_one;
  rule_new_raw nSt [NT' nE; TM' kSemi] r_stmt; rule_new_raw nSt [ER'; TM' kSemi] r_skip;
  rule_new_raw nE [NT' nE; TM' kPlus; NT' nT] r_sum; rule_new_raw nE [NT' nT] r_one;
  rule_new_raw nT [TM' kId] r_id ] nP.
Definition P_flat : prs := Eval vm_compute in fst (build env0 flat).
Definition flat_numbers (A : nat) : nat := match A with 2 => 3 | 3 => 2 | 0 => 1 | _ => 0 end.
Example C95_example : api_syntax nix0 tkix flat /\ makes env0 flat P_flat [] /\ ~ error_free flat /\ ~ piles_up (gram flat) (sx_start flat) /\
  longest (gram flat) * defined_count (gram flat) = 12 /\
  (exists st, turns tkix P_flat w_rec st /\ kept st = 3) /\ returns tkix P_flat w_rec (ROk 406).
Proof.
  split; [raw|]. split; [mk|]. split.
  { intros H. apply (H (mk_rule nSt [TM TErr; TM (TSym kSemi)])); cbn; auto 10. }
  split; [apply (C95_certificate _ flat_numbers); reflexivity|]. split; [reflexivity|]. split; [|exists 100; vm_compute; reflexivity].
  turn P_flat w_rec 5.
Qed.

(** E ::= E + T | T;  T ::= ( E ) | id: brackets pile up. *)
Lemma expr_piles : piles_up (gram expr) (sx_start expr).
Proof.
  exists nE, [TM (TSym kL)]. split; [left; reflexivity|]. split; [|discriminate].
  change [TM (TSym kL)] with ([] ++ [TM (TSym kL)]). eapply inside_trans with (B := nT).
  - apply (inside_rule _ (mk_rule nE [NT nT]) [] nT []); cbn; auto.
  - apply (inside_rule _ (mk_rule nT [TM (TSym kL); NT nE; TM (TSym kR)]) [TM (TSym kL)] nE [TM (TSym kR)]); cbn; auto.
Qed.

Example C95_grows_example : api_syntax nix0 tkix expr /\ makes env0 expr P_expr [] /\ error_free expr /\ productive (gram expr) /\ ~ cyclic (gram expr) (sx_start expr) /\
  (forall k r, In r (gram expr) -> In (TM (TSym k)) (r_rhs r) -> exists x, tkix x = k) /\ (forall w, total_on tkix expr w) /\ piles_up (gram expr) (sx_start expr) /\
  exists st, turns tkix P_expr [(kL, 0); (kL, 0); (kL, 0); (kId, 5); (kR, 0); (kR, 0); (kR, 0)] st /\ kept st = 5.
Proof.
  split; [apply expr_api|]. split; [apply expr_makes|]. split; [apply expr_free|]. split; [apply expr_productive|]. split; [apply expr_not_cyclic|]. split; [intros k r _ _; exists (k, 0); reflexivity|].
  split; [apply expr_total|]. split; [apply expr_piles|]. turn P_expr [(kL, 0); (kL, 0); (kL, 0); (kId, 5); (kR, 0); (kR, 0); (kR, 0)] 7.
Qed.
(** The two ways to write a list, R ::= x | x R and L ::= x | L x, on ten tokens: the first keeps ten tokens before it calls a reducer,
    the second never keeps more than two entries. *)
Definition r_one_tok : reducer nat tk nat := fun l => GOk 1.
Definition rlist : stx := mk_syntax [rule_new_raw 0 [TM' 0] r_one_tok; rule_new_raw 0 [TM' 0; NT' 0] r_one_tok] 0.
Definition llist : stx := mk_syntax [rule_new_raw 0 [TM' 0] r_one_tok; rule_new_raw 0 [NT' 0; TM' 0] r_one_tok] 0.
Definition P_rlist : prs := Eval vm_compute in fst (build env0 rlist).
Definition P_llist : prs := Eval vm_compute in fst (build env0 llist).
Definition ten : list tk := repeat (0, 0) 10.
Example C95_lists : api_syntax nix0 tkix rlist /\ makes env0 rlist P_rlist [] /\ error_free rlist /\ (forall r, In r (gram rlist) -> r_rhs r <> []) /\
  (exists st, turns tkix P_rlist ten st /\ kept st = 10 /\ length (ps_syms st) = 10) /\
  api_syntax nix0 tkix llist /\ makes env0 llist P_llist [] /\ ~ piles_up (gram llist) (sx_start llist) /\ longest (gram llist) * defined_count (gram llist) = 2.
Proof.
  split; [raw|]. split; [mk|]. split; [errfree|]. split; [intros r Hr; cbn in Hr; repeat destruct Hr as [<-|Hr]; try destruct Hr; discriminate|]. split.
  { turn P_rlist ten 10. }
  split; [raw|]. split; [mk|]. split; [apply (C95_certificate _ (fun _ => 0)); reflexivity|reflexivity].
Qed.
(** An empty right-hand side makes values from nothing: S ::= A A A x, A ::= (nothing) keeps three values when one token is taken. *)
Definition r_unit : reducer nat tk nat := fun l => GOk 0.
Definition hollow : stx := mk_syntax [rule_new_raw 0 [NT' 1; NT' 1; NT' 1; TM' 0] r_unit; rule_new_raw 1 [] r_unit] 0.
Definition P_hollow : prs := Eval vm_compute in fst (build env0 hollow).
Theorem C95_at_most_tokens_needed : exists (s : stx) P w st, api_syntax nix0 tkix s /\ makes env0 s P [] /\ error_free s /\ turns tkix P w st /\ length (ps_syms st) < kept st.
Proof.
  exists hollow, P_hollow, [(0, 0)]. destruct (after P_hollow 3 (ps_init P_hollow [(0, 0)])) as [st|] eqn:E; [|vm_compute in E; discriminate]. exists st.
  split; [raw|]. split; [mk|]. split; [errfree|]. split; [eapply after_init; exact E|]. vm_compute in E. injection E as <-. vm_compute. lia.
Qed.
Print Assumptions C95_at_most_tokens_needed.
