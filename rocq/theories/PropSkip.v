(** * Where parsing resumes after a syntax error.  C72.
    For grammars in whose rules a token stands behind every error symbol, as in [Statement ::= error ";"]
    ([error_then_token], PropParse.v). *)
From Coq Require Import List Arith Lia Bool Sorted.
From Verif Require Import Lib Grammar LrModel LrSpec LrSets LrStates LrNew LrTop LrMono ParseModel Trees ParseSpec ParseInv ParseComplete GramFacts ParseTerm ParseTop ParseMore ParseCover ParseExamples PropParse PropRecover SkipSpec ParseSkip.
Import ListNotations.

(** C72: a run has detected a syntax error and goes on ([st0] to [st1]).  Let [g] be symbols that lead to the state below the
    error symbol, and call a token synchronising if a rule asks for it next behind [g] and the error symbol.  Then the tokens
    before the first synchronising one are dropped, each with its own syntax error, without a reducer call and without going
    back; that token is shifted; the error symbol stands for everything from where it started to the last dropped token.
    If there is no synchronising token left, [parse] returns [Err(RecoveryRuleNotFound)]. *)
Theorem C72_resumes_at_first_possible_token : forall N T E (nix : N -> nat) (tix : T -> nat) e (s : syntax N T E) P ws w st0 st1,
  api_syntax nix tix s -> makes e s P ws -> (forall r, In r (gram s) -> error_then_token (r_rhs r)) ->
  turns tix P w st0 -> step_error tix P st0 <> None -> parse_step tix P st0 = inl st1 ->
  let tab := pr_tab P in
  let sync g x := wants (p_rules tab) (length (gram s)) (g ++ [TM TErr]) (TM (TSym (tix x))) in
  exists below from to under, ps_stack st1 = (below, EErr from to) :: under /\ (exists g, state_of tab g = Some below) /\
  forall g, state_of tab g = Some below ->
    (forall skip x rest, unread st1 = skip ++ x :: rest -> (forall y, In y skip -> ~ sync g y) -> sync g x ->
       exists st2 st3, turn_run tix P (length skip) st1 = Some st2 /\ parse_step tix P st2 = inl st3 /\
         calls tix P (S (length skip)) st1 = [] /\
         (exists a, w = a ++ unread st1 /\ errors tix P (S (length skip)) st1 = combine (map (fun y => TSym (tix y)) skip) (seq (length a) (length skip))) /\
         unread st3 = rest /\ state_of tab (g ++ [TM TErr; TM (TSym (tix x))]) = Some (ps_state st3) /\
         (exists q i to', ps_stack st3 = (q, ETok (tix x) i) :: (below, EErr from to') :: under /\ nth_error w i = Some x /\
            (skip = [] -> to' = to) /\ (skip <> [] -> S to' = i))) /\
    ((forall y, In y (unread st1) -> ~ sync g y) -> returns tix P w RNotFound).
Proof.
  intros N T E nix tix e s P ws w st0 st1 Ha Hmk Htok Ht He Hs tab sync. destruct (makes_made nix tix e s P ws Ha Hmk) as [ss Hm].
  pose proof (md_can _ _ _ _ Hm) as Hcan. unfold sync, tab. rewrite (can_rules _ _ _ Hcan).
  destruct (recovered tix s P ws ss w Hm st0 st1 Ht He Hs) as (cur & lo & hi & stk & Htop).
  assert (Ht1 : turns tix P w st1) by (econstructor; eauto).
  destruct (top_state tix s P ws ss w Hm st1 _ _ _ _ Ht1 Htop) as (g1 & ts & pos & Hinv & Hcur & _).
  exists cur, lo, hi, stk. split; [apply Htop|]. split; [eauto|]. intros g Hg.
  pose proof (unread_inv tix s P ss w _ _ _ _ Hinv) as Hun.
  assert (HgE : state_of (pr_tab P) (g ++ [TM TErr]) = Some (ps_state st1)).
  { pose proof (inv_state _ _ _ _ _ _ _ _ _ _ Hinv) as Hst. destruct Htop as [_ (ers & Ee & _)].
    assert (Hw : wants (augment (gram s) (sx_start s) ss) (length (gram s)) g (TM TErr)) by (eapply errors_wants; eauto).
    destruct (act_state (gram s) (sx_start s) ss P Hcan _ _ TErr Hg) as (d & Ea & Hd). destruct (act_state (gram s) (sx_start s) ss P Hcan _ _ TErr Hcur) as (d' & Ea' & Hd').
    assert (d' = d) by congruence. subst d'. destruct d as [[q|k|]|]; try (destruct Hd as [Hd _]; contradiction). destruct Hd as [_ Hd]. destruct Hd' as [_ Hd']. congruence. }
  split.
  - intros skip x rest Hu Hno Hx.
    destruct (skip_all tix s P ws ss w Hm Htok skip st1 g cur lo hi stk (x :: rest) Ht1 Htop HgE Hu Hno) as (st2 & R1 & R2 & R3 & R4 & R5 & R6 & R7).
    assert (HgE2 : state_of (pr_tab P) (g ++ [TM TErr]) = Some (ps_state st2)) by congruence.
    destruct (sync_turn tix s P ws ss w Hm Htok st2 g _ _ _ _ x rest R4 R7 HgE2 R5 Hx) as (st3 & S1 & S2 & S3 & S4 & S5 & S6).
    assert (Hcat : forall n st, turn_run tix P n st = Some st2 -> calls tix P (S n) st = calls tix P n st ++ calls tix P 1 st2 /\ errors tix P (S n) st = errors tix P n st ++ errors tix P 1 st2).
    { induction n as [|n IH]; intros st H; [cbn [turn_run] in H; injection H as ->; auto|]. cbn [turn_run] in H.
      destruct (parse_step tix P st) as [st'|] eqn:Es; [|discriminate]. destruct (IH _ H) as [H1 H2].
      remember (S n) as m. cbn [calls errors]. rewrite Es, H1, H2. subst m. cbn [calls errors]. rewrite Es, !app_assoc. auto. }
    destruct (Hcat _ _ R1) as [C1 C2].
    assert (Hle : length (unread st1) <= length w) by (rewrite Hun, skipn_length; lia).
    exists st2, st3. split; auto. split; auto. split; [rewrite C1, R2; cbn [calls]; rewrite S1, S2; reflexivity|]. split.
    { exists (firstn pos w). split; [rewrite Hun; symmetry; apply firstn_skipn|]. rewrite C2, R3. cbn [errors]. rewrite S1, S3. cbn [app]. rewrite app_nil_r.
      assert (El : length (firstn pos w) = length w - length (unread st1)).
      { rewrite Hun, skipn_length, firstn_length. pose proof (inv_pos _ _ _ _ _ _ _ _ _ _ Hinv) as H1. pose proof (inv_input _ _ _ _ _ _ _ _ _ _ Hinv) as H2. apply (f_equal (@length _)) in H2. rewrite app_length in H2. lia. }
      rewrite El. generalize (length w - length (unread st1)). clear. induction skip as [|y skip IH]; intros i; cbn [toks map seq length combine]; f_equal; auto. }
    split; auto. split; auto.
    exists (ps_state st2), (length w - length (unread st2)), (match skip with [] => hi | _ => length w - length (x :: rest) - 1 end).
    split; [rewrite S6; f_equal; apply R7|].
    assert (Hle2 : S (length rest) + length skip <= length w) by (rewrite Hu, app_length in Hle; cbn [length] in Hle; lia).
    split.
    { rewrite R5. assert (Ew : w = firstn pos w ++ skip ++ x :: rest) by (rewrite <- Hu, Hun; symmetry; apply firstn_skipn).       assert (Hlw : length w - length (x :: rest) = length (firstn pos w ++ skip)) by (rewrite Ew at 1; rewrite !app_length; cbn [length]; lia).
      rewrite Hlw. clear - Ew. set (a := firstn pos w) in *. clearbody a. subst w. rewrite app_assoc, nth_error_app2, Nat.sub_diag by lia. reflexivity. }
    split; [intros ->; reflexivity|]. intros Hne. destruct skip as [|y skip]; [congruence|]. rewrite R5. cbn [length] in *. lia.
  - intros Hno. assert (Hu : unread st1 = unread st1 ++ []) by (rewrite app_nil_r; reflexivity).
    destruct (skip_all tix s P ws ss w Hm Htok _ st1 g cur lo hi stk [] Ht1 Htop HgE Hu Hno) as (st2 & R1 & R2 & R3 & R4 & R5 & R6 & R7).
    assert (HgE2 : state_of (pr_tab P) (g ++ [TM TErr]) = Some (ps_state st2)) by congruence.
    destruct (skip_end tix s P ws ss w Hm Htok st2 g _ _ _ _ R4 R7 HgE2 R5) as [it Hit].
    destruct (turns_end tix P w st2 _ R4 Hit) as [fuel Hf]. apply returns_full. eauto.
Qed.
Print Assumptions C72_resumes_at_first_possible_token.

(** C72 for the whole input: if a syntax error is detected and no token of the input stands behind the error symbol in any
    rule, then [parse] returns [Err(RecoveryRuleNotFound)] *)
Theorem C72_no_synchronising_token : forall N T E (nix : N -> nat) (tix : T -> nat) e (s : syntax N T E) P ws w fuel,
  api_syntax nix tix s -> makes e s P ws -> (forall r, In r (gram s) -> error_then_token (r_rhs r)) ->
  parse_errors tix P fuel w <> [] ->
  (forall r a k b x, In r (gram s) -> r_rhs r = a ++ TM TErr :: TM (TSym k) :: b -> In x w -> tix x <> k) ->
  returns tix P w RNotFound.
Proof.
  intros N T E nix tix e s P ws w fuel Ha Hmk Htok Hne Hno. destruct (makes_made nix tix e s P ws Ha Hmk) as [ss Hm].
  assert (G : forall fuel st, turns tix P w st -> errors tix P fuel st <> [] -> exists st0, turns tix P w st0 /\ step_error tix P st0 <> None).
  { clear fuel Hne. induction fuel as [|fuel IH]; intros st Ht H; [cbn [errors] in H; congruence|]. cbn [errors] in H.
    destruct (step_error tix P st) eqn:Ee; [exists st; split; auto; congruence|]. cbn [app] in H. destruct (parse_step tix P st) as [st'|] eqn:Es; [|congruence].
    apply (IH st'); auto. econstructor; eauto. }
  destruct (G fuel (ps_init P w) (turns_init tix P w) Hne) as (st0 & Ht0 & He).
  destruct (turns_inv tix s P ws ss w Hm st0 Ht0) as (g0 & ts0 & pos0 & Hinv).
  destruct (cases tix s P ws ss w Hm _ _ _ _ Hinv) as (d & Hd & Hc). rewrite (err_spec tix s P ws ss w Hm _ _ _ _ _ Hinv Hd) in He. destruct d; [congruence|].
  destruct Hc as (_ & [(it & Hs & _)|(st1 & Hs & _)]).
  { destruct (turns_end tix P w st0 _ Ht0 Hs) as [f Hf]. apply returns_full. eauto. }
  assert (He' : step_error tix P st0 <> None) by (rewrite (err_spec tix s P ws ss w Hm _ _ _ _ _ Hinv Hd); discriminate).
  destruct (C72_resumes_at_first_possible_token _ _ _ nix tix e s P ws w st0 st1 Ha Hmk Htok Ht0 He' Hs) as (below & from & to & under & _ & (g & Hg) & Hall).
  destruct (Hall g Hg) as [_ Hfin]. apply Hfin. intros y Hy. rewrite (can_rules _ _ _ (md_can _ _ _ _ Hm)). intros (k & q & la & r & Hv & Hr & Hx).
  destruct (after_error s ss Htok _ _ Hv g eq_refl) as (r0 & a & k0 & b & E1 & E2 & E3). cbn [i_rule i_pos] in *. assert (r0 = r) by congruence. subst r0.
  rewrite E2, E3, nth_error_app2 in Hx by lia. replace (S (length a) - length a) with 1 in Hx by lia. cbn [nth_error] in Hx. injection Hx as Hx.
  assert (Hin : In r (gram s)).
  { destruct (Nat.eq_dec k (length (gram s))) as [->|Hk]; [|rewrite augment_old in Hr by auto; eapply nth_error_In; eauto].
    rewrite augment_start in Hr. injection Hr as <-. simpl in E2. destruct a as [|? [|]]; discriminate. }
  apply (Hno r a k0 b y Hin E2); auto.
  assert (Ht1 : turns tix P w st1) by (econstructor; eauto). destruct (turns_inv tix s P ws ss w Hm st1 Ht1) as (g1 & ts1 & pos1 & Hinv1).
  rewrite (unread_inv tix s P ss w _ _ _ _ Hinv1) in Hy. rewrite <- (firstn_skipn pos1 w). apply in_or_app. auto.
Qed.
Print Assumptions C72_no_synchronising_token.

(** in the input [1 2 3 ; 4 ;] an error is found at 2; the error symbol goes to the bottom of the stack; 2 and 3 are dropped *)
Definition w_junk : list tk := [(kId, 1); (kId, 2); (kId, 3); (kSemi, 0); (kId, 4); (kSemi, 0)].
Lemma stmts_token : forall r, In r (gram stmts) -> error_then_token (r_rhs r).
Proof.
  intros r Hr a b E0. simpl in Hr.
  repeat destruct Hr as [<-|Hr]; try destruct Hr; simpl in E0; destruct a as [|x1 [|x2 [|x3 [|x4 a]]]]; simpl in E0; try discriminate; injection E0; intros; subst; try discriminate; eauto.
Qed.
Example C72_example : exists st0 st1, turns tkix P_stmts w_junk st0 /\ step_error tkix P_stmts st0 = Some (TSym kId, 1) /\ parse_step tkix P_stmts st0 = inl st1 /\
  unread st1 = [(kId, 2); (kId, 3); (kSemi, 0); (kId, 4); (kSemi, 0)] /\
  (exists below, ps_stack st1 = [(below, EErr 0 1)] /\ state_of (pr_tab P_stmts) [] = Some below) /\
  wants (p_rules (pr_tab P_stmts)) (length (gram stmts)) [TM TErr] (TM (TSym kSemi)) /\ ~ wants (p_rules (pr_tab P_stmts)) (length (gram stmts)) [TM TErr] (TM (TSym kId)) /\
  exists v, returns tkix P_stmts w_junk (ROk v).
Proof.
  destruct (turn_run tkix P_stmts 1 (ps_init P_stmts w_junk)) as [st|] eqn:Er; [|vm_compute in Er; discriminate].
  destruct (parse_step tkix P_stmts st) as [st1|] eqn:Es; [|vm_compute in Er; injection Er as <-; vm_compute in Es; discriminate].
  exists st, st1. split; [eapply turn_run_ok; [constructor|exact Er]|]. vm_compute in Er. injection Er as <-. vm_compute in Es. injection Es as <-.
  split; [vm_compute; reflexivity|]. split; [vm_compute; reflexivity|]. split; [vm_compute; reflexivity|].
  split; [eexists; split; vm_compute; reflexivity|].
  destruct (makes_made nix0 tkix env0 stmts P_stmts [] stmts_api stmts_makes) as [ss Hm]. rewrite (can_rules _ _ _ (md_can _ _ _ _ Hm)).
  destruct (state_of (pr_tab P_stmts) [TM TErr]) as [q|] eqn:Eq; [|vm_compute in Eq; discriminate].
  destruct (act_state (gram stmts) (sx_start stmts) ss P_stmts (md_can _ _ _ _ Hm) _ _ (TSym kSemi) Eq) as (d & Ed & Hd).
  destruct (act_state (gram stmts) (sx_start stmts) ss P_stmts (md_can _ _ _ _ Hm) _ _ (TSym kId) Eq) as (d' & Ed' & Hd').
  vm_compute in Eq. injection Eq as <-. vm_compute in Ed. injection Ed as <-. vm_compute in Ed'. injection Ed' as <-.
  split; [apply Hd|]. split; [apply Hd'|]. eexists. exists 100. vm_compute. reflexivity.
Qed.
Example C72_example_none : parse_errors tkix P_stmts 100 [(kId, 1); (kId, 2); (kId, 3)] <> [] /\ returns tkix P_stmts [(kId, 1); (kId, 2); (kId, 3)] RNotFound.
Proof.
  assert (H : parse_errors tkix P_stmts 100 [(kId, 1); (kId, 2); (kId, 3)] <> []) by (vm_compute; discriminate). split; [exact H|].
  apply (C72_no_synchronising_token _ _ _ _ _ _ _ _ _ _ 100 stmts_api stmts_makes stmts_token H).
  intros r a k b x Hr Er Hx. simpl in Hr.
  repeat destruct Hr as [<-|Hr]; try destruct Hr; simpl in Er; destruct a as [|x1 [|x2 [|x3 [|x4 a]]]]; simpl in Er; try discriminate; injection Er; intros; subst; simpl in Hx; repeat destruct Hx as [<-|Hx]; try destruct Hx; try discriminate; subst; discriminate.
Qed.
