(** * Conflicts do not make [parse] run forever.  C63.
    With warnings the table of [LR1Parser::new] settles every conflict in some way.  What keeps [parse] from running in
    circles is not the absence of warnings but the absence of cycles and of hidden left recursion (LoopSpec.v). *)
From Coq Require Import List Arith Lia.
From Verif Require Import Lib Grammar LrModel LrSpec LrSets LrStates LrNew LrTop ParseModel Trees ParseSpec ParseInv ParseComplete GramFacts ParseTerm ParseTop ParseMore ParseLin ParseRecTerm LoopSpec ParseLoop LoopCheck ParseExamples PropParse PropLin.
Import ListNotations.

(** C63: for a grammar without cycles and hidden left recursion [parse] returns on every input, whatever warnings there are and
    also if some symbols derive nothing.  With error rules all symbols have to derive something, and no two error symbols
    may be neighbours. *)
Theorem C63_conflicts_terminate : forall N T E (nix : N -> nat) (tix : T -> nat) e (s : syntax N T E) P ws w,
  api_syntax nix tix s -> makes e s P ws -> loop_free (gram s) (sx_start s) ->
  error_free s \/ (productive (gram s) /\ errors_apart s) ->
  (exists o, returns tix P w o) \/ panics tix P w.
Proof.
  intros N T E nix tix e s P ws w Ha Hmk Hlf H. destruct (makes_made nix tix e s P ws Ha Hmk) as [ss Hm].
  pose proof (loop_free_wf (gram s) (sx_start s) ss (md_fresh _ _ _ _ Hm) Hlf) as Hwf.
  assert (G : exists r, ends (parse_step tix P) (ps_init P w) r /\ r <> OutOfFuel).
  { destruct H as [Hef|[Hp Hap]].
    - apply (parse_ends tix (gram s) (sx_start s) ss P w (md_fresh _ _ _ _ Hm) (md_eoi _ _ _ _ Hm) (md_can _ _ _ _ Hm) (md_len _ _ _ _ Hm) Hef Hwf).
    - apply (stops_all tix s P ws ss w Hm Hwf Hp Hap _ [] [] 0 (at_init tix s P ss w)). }
  destruct G as ([[o it]| |] & Hr & Hn); [| |congruence].
  - left. exists o. eapply ends_returns; eauto.
  - right. apply ends_panics; auto.
Qed.
Print Assumptions C63_conflicts_terminate.

(** without error rules the number of turns is linear in the length of the input; the constant depends on the rules only *)
Theorem C63_conflicts_linear : forall N T E (nix : N -> nat) (tix : T -> nat) e (s : syntax N T E) P ws,
  api_syntax nix tix s -> makes e s P ws -> loop_free (gram s) (sx_start s) -> error_free s ->
  exists C, forall N' T' E' (nix' : N' -> nat) (tix' : T' -> nat) e' (s' : syntax N' T' E') P' ws',
    gram s' = gram s -> sx_start s' = sx_start s -> api_syntax nix' tix' s' -> makes e' s' P' ws' ->
    forall w, parse tix' P' (C * (length w + 1)) w <> OutOfFuel /\
      forall fuel, length (parse_calls tix' P' fuel w) <= C * (length w + 1).
Proof.
  intros N T E nix tix e s P ws Ha Hmk Hlf Hef. destruct (makes_made nix tix e s P ws Ha Hmk) as [ss Hm].
  destruct (burst (gram s) (sx_start s) ss (pr_tab P) (md_can _ _ _ _ Hm) (loop_free_wf _ _ _ (md_fresh _ _ _ _ Hm) Hlf)) as (M & C & HB).
  exists (M + C + 1). intros N' T' E' nix' tix' e' s' P' ws' Eg Es Ha' Hmk' w.
  destruct (makes_made nix' tix' e' s' P' ws' Ha' Hmk') as [ss' Hm'].
  assert (ss' = ss) by (pose proof (md_ss _ _ _ _ Hm) as H1; pose proof (md_ss _ _ _ _ Hm') as H2; rewrite Eg in H2; congruence). subst ss'.
  assert (G : parse_full tix' P' ((M + C + 1) * S (length w)) w <> OutOfFuel).
  { apply (turns tix' (gram s') (sx_start s') ss P' (md_fresh _ _ _ _ Hm') (md_eoi _ _ _ _ Hm') (md_can _ _ _ _ Hm') (md_len _ _ _ _ Hm')) with (M := M) (C := C).
    - rewrite Eg, Es. exact HB.
    - left. unfold error_free in Hef. rewrite <- Eg in Hef. exact Hef. }
  replace (length w + 1) with (S (length w)) by lia. split.
  - unfold parse. intros H. apply G. destruct (parse_full tix' P' _ w) as [x| |]; simpl in H; [discriminate H|discriminate H|reflexivity].
  - intros fuel. apply calls_bound. exact G.
Qed.
Print Assumptions C63_conflicts_linear.

(** C23 again: the language is decided also when some symbols derive nothing *)
Theorem C23_decides_loop_free_partial : forall N T E (nix : N -> nat) (tix : T -> nat) e (s : syntax N T E) P w,
  api_syntax nix tix s -> makes e s P [] -> error_free s -> loop_free (gram s) (sx_start s) -> total_on tix s w ->
  (derivable tix s w /\ exists v, returns tix P w (ROk v)) \/ (~ derivable tix s w /\ returns tix P w RNotFound).
Proof.
  intros N T E nix tix e s P w Ha Hmk Hef Hlf Ht0. destruct Ht0 as [ty Ht] eqn:Et. clear Et. pose proof (total_keeps tix s w ty Ht) as Hk.
  destruct (C63_conflicts_terminate _ _ _ nix tix e s P [] w Ha Hmk Hlf (or_introl Hef)) as [[o Ho]|Hpa].
  - destruct o as [v| |x].
    + left. split; [eapply C21_sound; eauto|eauto].
    + right. split; auto. intros Hd. destruct (C22_complete _ _ _ nix tix e s P w Ha Hmk Hd Ht0) as [v Hv]. pose proof (returns_det tix P _ _ _ Ho Hv). discriminate.
    + exfalso. destruct Ho as [fuel Hf]. pose proof (C25_first_error_wins _ _ _ nix tix e s P [] w fuel Ha Hmk) as H. cbv zeta in H. rewrite Hf in H.
      destruct H as (L & k & args & H1 & _ & H2). destruct (proj1 (C45_typed _ _ _ nix tix e s P [] w ty Ha Hmk Hk fuel) k args) as (r & Hr & Hg & Hty); [rewrite H1; apply in_or_app; simpl; auto|].
      destruct (Ht r args (nth_error_In _ _ Hr) Hg Hty) as (v & Hv & _). unfold call, gens in H2. rewrite nth_error_map, Hr in H2. simpl in H2. congruence.
  - exfalso. eapply (C28_no_panic_safe_reducers_partial _ _ _ nix tix e s P [] w ty Ha Hmk (or_intror Hef) Hk); auto.
    intros r args Hr Hg Hty. destruct (Ht r args Hr Hg Hty) as (v & -> & _). discriminate.
Qed.
Print Assumptions C23_decides_loop_free_partial.

(** a way to find out: numbers for the nonterminals that a program can check *)
Theorem C63_certificate : forall rs start nl rank1 rank2, loop_check rs nl rank1 rank2 = true -> loop_free rs start.
Proof. intros. eapply loop_check_sound; eauto. Qed.
Print Assumptions C63_certificate.

(** ** Examples *)
(** E ::= E + E | id: a shift/reduce conflict *)
Definition g_amb : stx := mk_syntax [rule_new_raw nE [NT' nE; TM' kPlus; NT' nE] r_sum; rule_new_raw nE [TM' kId] r_id] nE.
(** S ::= if S | if S else S | id;  an empty list of labels before: the dangling else, with empty rules.
    S ::= L id | if S | if S else S;  L ::= (nothing) | L label *)
Definition g_else : stx := mk_syntax [rule_new_raw 0 [NT' 1; TM' 0] r_any; rule_new_raw 0 [TM' 1; NT' 0] r_any; rule_new_raw 0 [TM' 1; NT' 0; TM' 2; NT' 0] r_any;
  rule_new_raw 1 [] r_any; rule_new_raw 1 [NT' 1; TM' 3] r_any] 0.
(** S ::= A | id;  A ::= A U id;  U ::= ( U: A and U derive nothing, there are no warnings *)
Definition g_dead : stx := mk_syntax [rule_new_raw 0 [NT' 1] r_any; rule_new_raw 0 [TM' 0] r_any; rule_new_raw 1 [NT' 1; NT' 2; TM' 0] r_any; rule_new_raw 2 [TM' 2; NT' 2] r_any] 0.
Definition P_amb : prs := Eval vm_compute in fst (build env0 g_amb).
Definition P_else : prs := Eval vm_compute in fst (build env0 g_else).
Definition P_dead : prs := Eval vm_compute in fst (build env0 g_dead).
Example C63_example : exists ws1 ws2, ws1 <> [] /\ ws2 <> [] /\
  api_syntax nix0 tkix g_amb /\ makes env0 g_amb P_amb ws1 /\ loop_free (gram g_amb) 0 /\ error_free g_amb /\
  api_syntax nix0 tkix g_else /\ makes env0 g_else P_else ws2 /\ loop_free (gram g_else) 0 /\ error_free g_else /\
  returns tkix P_amb [(kId, 1); (kPlus, 0); (kId, 2); (kPlus, 0); (kId, 3)] (ROk 6) /\
  returns tkix P_amb [(kId, 1); (kPlus, 0); (kPlus, 2)] RNotFound.
Proof.
  assert (M1 : makes env0 g_amb P_amb (snd (build env0 g_amb))) by mk. assert (M2 : makes env0 g_else P_else (snd (build env0 g_else))) by mk.
  exists (snd (build env0 g_amb)), (snd (build env0 g_else)). split; [vm_compute; discriminate|]. split; [vm_compute; discriminate|].
  split; [raw|]. split; [exact M1|]. split; [apply (C63_certificate _ _ [] (fun _ => 0) (fun _ => 0)); reflexivity|]. split; [errfree|].
  split; [raw|]. split; [exact M2|]. split; [apply (C63_certificate _ _ [1] (fun _ => 0) (fun A => 2 - A)); reflexivity|]. split; [errfree|].
  split; exists 100; vm_compute; reflexivity.
Qed.
Example C23_example_loop_free : api_syntax nix0 tkix g_dead /\ makes env0 g_dead P_dead [] /\ error_free g_dead /\ loop_free (gram g_dead) 0 /\ ~ productive (gram g_dead) /\
  total_on tkix g_dead [(0, 0)] /\ derivable tkix g_dead [(0, 0)].
Proof.
  split; [raw|]. split; [mk|]. split; [errfree|]. split; [apply (C63_certificate _ _ [] (fun A => 2 - A) (fun A => 2 - A)); reflexivity|]. split; [|split].
  - intros Hp. destruct (Hp (mk_rule 2 [TM (TSym 2); NT 2]) (NT 2)) as [w Hw]; simpl; auto.
    assert (G : (forall X w, der (gram g_dead) X w -> X <> NT 2) /\ (forall l w, ders (gram g_dead) l w -> ~ In (NT 2) l)).
    { apply der_ders_ind; try discriminate; auto.
      - intros r w0 Hr _ IH. simpl in Hr. repeat destruct Hr as [<-|Hr]; try destruct Hr; simpl in *; try discriminate. intros _. apply IH. auto.
      - intros X l u v _ H1 _ H2 [->|H]; auto. }
    exact (proj1 G _ _ Hw eq_refl).
  - exists (fun _ _ => True). intros r args Hr _ _. simpl in Hr. repeat destruct Hr as [<-|Hr]; try destruct Hr; eexists; split; solve [reflexivity|exact I].
  - apply single_der. simpl. auto.
Qed.

(** Neither condition can be dropped: S ::= A S a | B with A and B empty has hidden left recursion and no cycle;
    A ::= A | id, S ::= A has a cycle and no hidden left recursion. *)
Definition g_hidden : stx := mk_syntax [rule_new_raw 0 [NT' 1; NT' 0; TM' 0] r_any; rule_new_raw 0 [NT' 2] r_any; rule_new_raw 1 [] r_any; rule_new_raw 2 [] r_any] 0.
Definition g_cycle : stx := mk_syntax [rule_new_raw 1 [NT' 1] r_any; rule_new_raw 0 [NT' 1] r_any; rule_new_raw 1 [TM' 0] r_any] 0.
Definition P_hidden : prs := Eval vm_compute in fst (build env0 g_hidden).
Definition P_cycle : prs := Eval vm_compute in fst (build env0 g_cycle).
Lemma hidden_diverges : diverges tkix P_hidden [(0, 0)].
Proof.
  apply (diverges_by _ _ 2 (mk_ps [] 4 [(0, 0)] [(TSym 0, 0)] [(1, ENon 0 1); (0, ENon 0 1)] []) (fun x => exists st, x = mk_ps [] 4 [(0, 0)] [(TSym 0, 0)] st [])).
  - intros fuel. reflexivity.
  - eauto.
  - intros x [st ->]. eexists. split; [reflexivity|]. eexists. reflexivity.
Qed.
Lemma cycle_diverges : diverges tkix P_cycle [(0, 0)].
Proof.
  apply (diverges_by _ _ 2 (mk_ps [] 1 [(0, 0)] [(TEoi, 0)] [(0, ENon 1 0)] []) (fun x => x = mk_ps [] 1 [(0, 0)] [(TEoi, 0)] [(0, ENon 1 0)] [])).
  - intros fuel. reflexivity.
  - auto.
  - intros x ->. eexists. split; reflexivity.
Qed.
Theorem C63_both_needed :
  (exists (s : stx) P ws w, api_syntax nix0 tkix s /\ makes env0 s P ws /\ error_free s /\ productive (gram s) /\
     (forall A, ~ cyclic (gram s) A) /\ diverges tkix P w) /\
  (exists (s : stx) P ws w, api_syntax nix0 tkix s /\ makes env0 s P ws /\ error_free s /\ productive (gram s) /\
     (forall A, ~ hidden_left_recursive (gram s) A) /\ diverges tkix P w).
Proof.
  split.
  - exists g_hidden, P_hidden. eexists. exists [(0, 0)]. split; [raw|]. split; [mk|]. split; [errfree|]. split; [|split; [|apply hidden_diverges]].
    + assert (H1 : der (gram g_hidden) (NT 1) []) by (apply (der_rule _ (mk_rule 1 [])); [simpl; auto|constructor]).
      assert (H2 : der (gram g_hidden) (NT 2) []) by (apply (der_rule _ (mk_rule 2 [])); [simpl; auto|constructor]).
      assert (H0 : der (gram g_hidden) (NT 0) []). { apply (der_rule _ (mk_rule 0 [NT 2])); [simpl; auto|]. change (@nil term) with (@nil term ++ []). constructor; [auto|constructor]. }
      intros r X Hr HX. simpl in Hr. repeat destruct Hr as [<-|Hr]; try destruct Hr; simpl in HX; repeat destruct HX as [<-|HX]; try destruct HX; eauto. eexists. constructor.
    + apply (cycle_check_sound _ [0; 1; 2] (fun A => 2 - A)); reflexivity.
  - exists g_cycle, P_cycle. eexists. exists [(0, 0)]. split; [raw|]. split; [mk|]. split; [errfree|]. split; [|split; [|apply cycle_diverges]].
    + assert (H1 : der (gram g_cycle) (NT 1) [TSym 0]) by (apply single_der; simpl; auto).
      intros r X Hr HX. simpl in Hr. repeat destruct Hr as [<-|Hr]; try destruct Hr; simpl in HX; repeat destruct HX as [<-|HX]; try destruct HX; eauto. eexists. constructor.
    + apply (left_check_sound _ [] (fun A => 0)); reflexivity.
Qed.
Print Assumptions C63_both_needed.
