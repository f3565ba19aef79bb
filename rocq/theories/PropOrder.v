(** * Property C65: the order of the rules *)
From Coq Require Import List Arith Lia Permutation.
From Verif Require Import Lib Grammar LrModel LrSpec LrTop LrMono ParseModel Trees ParseSpec ParseTop LoopSpec MachSpec MachProofs RuleMap OrderSpec PropMach ParseExamples PropParse.
Import ListNotations.

(** ** From lists to matchings *)
Record listmatch {A} (l l' : list A) (R : nat -> nat -> Prop) : Prop := {
  lm_rule : forall k k', R k k' -> exists r, nth_error l k = Some r /\ nth_error l' k' = Some r;
  lm_fun : forall k a b, R k a -> R k b -> a = b;
  lm_inj : forall k a b, R a k -> R b k -> a = b }.

Lemma perm_match {A} (l l' : list A) : Permutation l l' -> exists R, listmatch l l' R /\
  (forall k r, nth_error l k = Some r -> exists k', R k k') /\ (forall k' r, nth_error l' k' = Some r -> exists k, R k k').
Proof.
  induction 1 as [|x l l' H (R & [R1 R2 R3] & R4 & R5)|x y l|l l' l'' H1 (R & [R1 R2 R3] & R4 & R5) H2 (Q & [Q1 Q2 Q3] & Q4 & Q5)].
  - exists (fun _ _ => False). split; [split; intros; contradiction|]. split; intros [|k] r H; discriminate.
  - exists (fun k k' => match k, k' with 0, 0 => True | S a, S b => R a b | _, _ => False end). split; [split|split].
    + intros [|k] [|k'] Hk; try contradiction; simpl; [eauto|]. apply R1. auto.
    + intros [|k] [|a] [|b] Ha Hb; try contradiction; auto. f_equal. eauto.
    + intros [|k] [|a] [|b] Ha Hb; try contradiction; auto. f_equal. eauto.
    + intros [|k] r Hk; [exists 0; exact I|]. destruct (R4 _ _ Hk) as [k' Hk']. exists (S k'). auto.
    + intros [|k] r Hk; [exists 0; exact I|]. destruct (R5 _ _ Hk) as [k' Hk']. exists (S k'). auto.
  - exists (fun k k' => match k, k' with 0, 1 => True | 1, 0 => True | S (S a), S (S b) => a = b /\ exists r, nth_error l a = Some r | _, _ => False end). split; [split|split].
    + intros [|[|k]] [|[|k']] Hk; try contradiction; simpl; eauto. destruct Hk as [-> [r Hr]]. eauto.
    + intros [|[|k]] [|[|a]] [|[|b]] Ha Hb; try contradiction; auto. destruct Ha, Hb. congruence.
    + intros [|[|k]] [|[|a]] [|[|b]] Ha Hb; try contradiction; auto. destruct Ha, Hb. congruence.
    + intros [|[|k]] r Hk; [exists 1; exact I|exists 0; exact I|]. exists (S (S k)). split; auto. simpl in Hk. eauto.
    + intros [|[|k]] r Hk; [exists 1; exact I|exists 0; exact I|]. exists (S (S k)). split; auto. simpl in Hk. eauto.
  - exists (fun k k' => exists j, R k j /\ Q j k'). split; [split|split].
    + intros k k' (j & A1 & A2). destruct (R1 _ _ A1) as (r & B1 & B2), (Q1 _ _ A2) as (r' & B3 & B4). exists r. split; congruence.
    + intros k a b (j & A1 & A2) (j' & A3 & A4). rewrite (R2 _ _ _ A1 A3) in A2. eauto.
    + intros k a b (j & A1 & A2) (j' & A3 & A4). rewrite (Q3 _ _ _ A2 A4) in A1. eauto.
    + intros k r Hk. destruct (R4 _ _ Hk) as [j Hj]. destruct (R1 _ _ Hj) as (r' & B1 & B2). destruct (Q4 _ _ B2) as [k' Hk']. eauto.
    + intros k r Hk. destruct (Q5 _ _ Hk) as [j Hj]. destruct (Q1 _ _ Hj) as (r' & B1 & B2). destruct (R5 _ _ B1) as [k' Hk']. eauto.
Qed.

Section Match.
  Context {N T E : Type} (tix : T -> nat).

  Lemma order_matching (s s' : syntax N T E) : same_rules_any_order s s' ->
    exists R, listmatch (sx_rules s) (sx_rules s') R /\ matching (gram s) (gram s') (sx_start s) R.
  Proof.
    intros (Es & l & u & u' & H1 & H2 & H3 & H4). rewrite Forall_forall in H3, H4.
    destruct (perm_match _ _ H1) as (R & [R1 R2 R3] & R4 & R5). destruct (perm_match _ _ H2) as (Q & [Q1 Q2 Q3] & Q4 & Q5).
    set (RR := fun k k' => exists j, j < length l /\ R k j /\ Q k' j).
    assert (HL : listmatch (sx_rules s) (sx_rules s') RR).
    { split.
      - intros k k' (j & Hj & A1 & A2). destruct (R1 _ _ A1) as (r & B1 & B2), (Q1 _ _ A2) as (r' & B3 & B4). exists r. split; auto.
        rewrite nth_error_app1 in B2, B4 by auto. congruence.
      - intros k a b (j & _ & A1 & A2) (j' & _ & A3 & A4). rewrite (R2 _ _ _ A1 A3) in A2. eauto.
      - intros k a b (j & _ & A1 & A2) (j' & _ & A3 & A4). rewrite (Q2 _ _ _ A2 A4) in A1. eauto. }
    exists RR. split; auto. split; try apply HL; unfold gram.
    - intros k k' Hk. destruct (lm_rule _ _ _ HL _ _ Hk) as (r & B1 & B2). exists (cr_rule r). rewrite !nth_error_map, B1, B2. auto.
    - intros k r Hk Hr. rewrite nth_error_map in Hk. destruct (nth_error (sx_rules s) k) as [c|] eqn:Ec; [|discriminate]. injection Hk as <-.
      destruct (R4 _ _ Ec) as [j Hj]. destruct (R1 _ _ Hj) as (c' & B1 & B2). rewrite Ec in B1. injection B1 as <-.
      destruct (Nat.lt_ge_cases j (length l)) as [Hlt|Hge].
      + rewrite nth_error_app1 in B2 by auto. destruct (Q5 j c) as [k' Hk']; [rewrite nth_error_app1 by auto; auto|]. exists k', j. auto.
      + rewrite nth_error_app2 in B2 by auto. exfalso. apply (H3 c); [eapply nth_error_In; eauto|auto].
    - intros k' r Hk Hr. rewrite nth_error_map in Hk. destruct (nth_error (sx_rules s') k') as [c|] eqn:Ec; [|discriminate]. injection Hk as <-.
      destruct (Q4 _ _ Ec) as [j Hj]. destruct (Q1 _ _ Hj) as (c' & B1 & B2). rewrite Ec in B1. injection B1 as <-.
      destruct (Nat.lt_ge_cases j (length l)) as [Hlt|Hge].
      + rewrite nth_error_app1 in B2 by auto. destruct (R5 j c) as [k Hk]; [rewrite nth_error_app1 by auto; auto|]. exists k, j. auto.
      + rewrite nth_error_app2 in B2 by auto. exfalso. apply (H4 c); [eapply nth_error_In; eauto|]. rewrite <- Es. auto.
  Qed.

  Lemma inserted_matching (s s' : syntax N T E) : with_useless_rules s s' ->
    exists R, listmatch (sx_rules s) (sx_rules s') R /\ matching (gram s) (gram s') (sx_start s) R /\
      forall a a' b b', R a a' -> R b b' -> (a <= b <-> a' <= b').
  Proof.
    intros (Es & Hi).
    assert (G : exists R, listmatch (sx_rules s) (sx_rules s') R /\ (forall a a' b b', R a a' -> R b b' -> (a <= b <-> a' <= b')) /\
      (forall k r, nth_error (sx_rules s) k = Some r -> exists k', R k k') /\ (forall k' r, nth_error (sx_rules s') k' = Some r -> useless s' r \/ exists k, R k k')).
    { induction Hi as [|c l l' Hi (R & [R1 R2 R3] & R4 & R5 & R6)|c l l' Hc Hi (R & [R1 R2 R3] & R4 & R5 & R6)].
      - exists (fun _ _ => False). split; [split; intros; contradiction|]. split; [intros; contradiction|]. split; intros [|k] r H; discriminate.
      - exists (fun k k' => match k, k' with 0, 0 => True | S a, S b => R a b | _, _ => False end). split; [split|split; [|split]].
        + intros [|k] [|k'] Hk; try contradiction; simpl; [eauto|]. apply R1. auto.
        + intros [|k] [|a] [|b] Ha Hb; try contradiction; auto. f_equal. eauto.
        + intros [|k] [|a] [|b] Ha Hb; try contradiction; auto. f_equal. eauto.
        + intros [|a] [|a'] [|b] [|b'] Ha Hb; try contradiction; try lia. pose proof (R4 _ _ _ _ Ha Hb). lia.
        + intros [|k] r Hk; [exists 0; exact I|]. destruct (R5 _ _ Hk) as [k' Hk']. exists (S k'). auto.
        + intros [|k] r Hk; [right; exists 0; exact I|]. destruct (R6 _ _ Hk) as [Hu|[k' Hk']]; [auto|]. right. exists (S k'). auto.
      - exists (fun k k' => match k' with 0 => False | S b => R k b end). split; [split|split; [|split]].
        + intros k [|k'] Hk; try contradiction; simpl. apply R1. auto.
        + intros k [|a] [|b] Ha Hb; try contradiction; auto. f_equal. eauto.
        + intros [|k] a b Ha Hb; try contradiction; eauto.
        + intros a [|a'] b [|b'] Ha Hb; try contradiction. pose proof (R4 _ _ _ _ Ha Hb). lia.
        + intros k r Hk. destruct (R5 _ _ Hk) as [k' Hk']. exists (S k'). auto.
        + intros [|k] r Hk; [left; injection Hk as <-; auto|]. destruct (R6 _ _ Hk) as [Hu|[k' Hk']]; [auto|]. right. exists k'. auto. }
    destruct G as (R & HL & HM & H1 & H2). exists R. split; auto. split; auto. split; try apply HL; unfold gram.
    - intros k k' Hk. destruct (lm_rule _ _ _ HL _ _ Hk) as (r & B1 & B2). exists (cr_rule r). rewrite !nth_error_map, B1, B2. auto.
    - intros k r Hk _. rewrite nth_error_map in Hk. destruct (nth_error (sx_rules s) k) as [c|] eqn:Ec; [|discriminate]. eauto.
    - intros k' r Hk Hr. rewrite nth_error_map in Hk. destruct (nth_error (sx_rules s') k') as [c|] eqn:Ec; [|discriminate]. injection Hk as <-.
      destruct (H2 _ _ Ec) as [Hu|H]; auto. exfalso. apply Hu. rewrite <- Es. auto.
  Qed.

  Lemma gens_match (s s' : syntax N T E) R : listmatch (sx_rules s) (sx_rules s') R -> forall k k', R k k' -> nth_error (gens s) k = nth_error (gens s') k'.
  Proof.
    intros HL k k' Hk. destruct (lm_rule _ _ _ HL _ _ Hk) as (r & B1 & B2). unfold gens. rewrite !nth_error_map, B1, B2. reflexivity.
  Qed.

  Lemma same_from (s s' : syntax N T E) P P' ws ws' ss ss' R : made s P ws ss -> made s' P' ws' ss' -> sx_start s = sx_start s' ->
    listmatch (sx_rules s) (sx_rules s') R -> matching (gram s) (gram s') (sx_start s) R ->
    (ws = [] \/ forall a a' b b', R a a' -> R b b' -> (a <= b <-> a' <= b')) ->
    (ws = [] <-> ws' = []) /\ same_behaviour tix P P'.
  Proof.
    intros D D' Es HL HM Ho.
    assert (Hcf : conflict_free (augment (gram s) (sx_start s) ss) (length (gram s)) <-> conflict_free (augment (gram s') (sx_start s) ss') (length (gram s'))).
    { split; [apply (conflict_free_fwd _ _ _ R)|apply (conflict_free_fwd _ _ _ _ _ _ (matching_sym _ _ _ _ HM))]; auto; try apply D; try apply D'. }
    assert (Hw : ws = [] <-> ws' = []) by (rewrite (md_free _ _ _ _ D), (md_free _ _ _ _ D'), <- Es; exact Hcf).
    split; auto.
    assert (HS : same_rules (gram s) (gram s') (sx_start s) ss ss' (gens s) (gens s') R).
    { split; auto; try apply D; try apply D'.
      - apply (gens_match _ _ _ HL).
      - destruct Ho as [Ho|Ho]; [right|left; auto]. rewrite <- Hcf. split; apply (md_free _ _ _ _ D); auto. }
    pose proof (same_rules_sym _ _ _ _ _ _ _ _ HS) as HS'. intros w.
    destruct (mach_ok tix s P ws ss w D) as [A1 A2]. destruct (mach_ok tix s' P' ws' ss' w D') as [B1 B2]. rewrite <- Es in B1, B2.
    assert (Hends : forall r, mach_ends tix (gram s) (sx_start s) ss (gens s) w r <-> mach_ends tix (gram s') (sx_start s) ss' (gens s') w r).
    { intros r. split; [apply (mach_ends_fwd tix _ _ _ _ _ _ _ _ w HS)|apply (mach_ends_fwd tix _ _ _ _ _ _ _ _ w HS')]. }
    split; [|split].
    - intros o rest. rewrite (A1 (Ok (o, rest))) by discriminate. rewrite (B1 (Ok (o, rest))) by discriminate. apply Hends.
    - rewrite !panics_full. rewrite (A1 Panic), (B1 Panic) by discriminate. apply Hends.
    - rewrite !diverges_full. rewrite A2, B2. split; [apply (mach_forever_fwd tix _ _ _ _ _ _ _ _ w HS)|apply (mach_forever_fwd tix _ _ _ _ _ _ _ _ w HS')].
  Qed.
End Match.

(** Without warnings neither the order of the rules nor rules that cannot be reached from the start symbol matter: the other
    grammar has no warnings either, and the two parsers do the same on all inputs. *)
Theorem C65_rule_order : forall N T E (nix : N -> nat) (tix : T -> nat) e e' (s s' : syntax N T E) P P' ws',
  api_syntax nix tix s -> api_syntax nix tix s' -> same_rules_any_order s s' -> makes e s P [] -> makes e' s' P' ws' ->
  ws' = [] /\ same_behaviour tix P P'.
Proof.
  intros N T E nix tix e e' s s' P P' ws' Ha Ha' Ho Hk Hk'.
  destruct (makes_made nix tix e s P [] Ha Hk) as [ss D]. destruct (makes_made nix tix e' s' P' ws' Ha' Hk') as [ss' D'].
  destruct (order_matching s s' Ho) as (R & HL & HM). destruct (same_from tix s s' P P' [] ws' ss ss' R D D' (proj1 Ho) HL HM (or_introl eq_refl)) as [H1 H2].
  split; auto. apply H1. auto.
Qed.
Print Assumptions C65_rule_order.

(** Rules that cannot be reached never matter, as long as the others keep their order. *)
Theorem C65_useless_rules : forall N T E (nix : N -> nat) (tix : T -> nat) e e' (s s' : syntax N T E) P P' ws ws',
  api_syntax nix tix s -> api_syntax nix tix s' -> with_useless_rules s s' -> makes e s P ws -> makes e' s' P' ws' ->
  (ws = [] <-> ws' = []) /\ same_behaviour tix P P'.
Proof.
  intros N T E nix tix e e' s s' P P' ws ws' Ha Ha' Ho Hk Hk'.
  destruct (makes_made nix tix e s P ws Ha Hk) as [ss D]. destruct (makes_made nix tix e' s' P' ws' Ha' Hk') as [ss' D'].
  destruct (inserted_matching s s' Ho) as (R & HL & HM & HR). apply (same_from tix s s' P P' ws ws' ss ss' R D D' (proj1 Ho) HL HM (or_intror HR)).
Qed.
Print Assumptions C65_useless_rules.

(** The other parser can be built as well, whatever the warnings, if the start symbol has a rule. *)
Theorem C65_builds : forall N T E (nix : N -> nat) (tix : T -> nat) e e' (s s' : syntax N T E) P ws,
  api_syntax nix tix s -> api_syntax nix tix s' -> same_rules_any_order s s' -> (exists r, In r (gram s) /\ r_lhs r = sx_start s) ->
  makes e s P ws -> lr_env_ok e' -> exists P' ws', makes e' s' P' ws'.
Proof.
  intros N T E nix tix e e' s s' P ws Ha Ha' Ho (r0 & Hr0 & El) [He [fuel Hf]] He'. pose proof (api_no_eoi nix tix s Ha) as Heoi. pose proof (api_no_eoi nix tix s' Ha') as Heoi'.
  destruct (lr_new_ok e (gram s) (sx_start s) He Heoi) as (ss & Ess & Hss & F & r & HF & Hr).
  destruct (lr_new_ok e' (gram s') (sx_start s') He' Heoi') as (ss' & Ess' & Hss' & F' & r' & HF' & Hr').
  assert (Hnd : ~ dangling (augment (gram s) (sx_start s) ss) (length (gram s))).
  { destruct r as [[p w]| |]; simpl in Hr; [apply Hr| |contradiction]. exfalso.
    unfold lr1_new in Hf. fold (gram s) in Hf. destruct (lr_new e fuel (gram s) (sx_start s)) as [q| |] eqn:En; simpl in Hf; try discriminate.
    assert (G : lr_new e (fuel + F) (gram s) (sx_start s) = Ok q) by (apply (lr_new_mono e fuel); auto; [congruence|lia]). rewrite HF in G by lia. discriminate. }
  destruct r' as [[p w]| |]; simpl in Hr'; [|exfalso|contradiction].
  - eexists _, _. split; auto. exists F'. unfold lr1_new. fold (gram s'). rewrite (HF' F' (le_n _)). reflexivity.
  - apply Hnd. destruct (order_matching s s' Ho) as (R & HL & HM). rewrite <- (proj1 Ho) in Hr'.
    apply (dangling_fwd _ _ _ _ (matching_sym _ _ _ _ HM) ss' ss); auto.
    assert (Hreach : reachable (gram s) (sx_start s) (r_lhs r0)) by (rewrite El; apply reach_start).
    destruct (In_nth_error _ _ Hr0) as [k Hk]. destruct (mt_l _ _ _ _ HM _ _ Hk Hreach) as [k' HR]. destruct (mt_rule _ _ _ _ HM _ _ HR) as (r1 & B1 & B2).
    exists r1. split; [eapply nth_error_In; eauto|congruence].
Qed.
Print Assumptions C65_builds.

(** ** Examples *)
(** the rules of [expr] in the opposite order, with a rule for a nonterminal that does not occur elsewhere *)
Definition g_rev : stx := mk_syntax (rule_new_raw 7 [TM' kPlus; NT' nE] r_any :: rev (sx_rules expr)) nE.
Definition P_rev : prs := Eval vm_compute in fst (build env0 g_rev).
Lemma rev_unreachable : useless g_rev (rule_new_raw 7 [TM' kPlus; NT' nE] r_any).
Proof.
  intros (l1 & l2 & H). change (NT (r_lhs (cr_rule (rule_new_raw 7 [TM' kPlus; NT' nE] r_any)))) with (NT 7) in H.
  assert (G : forall l l', rewr (gram g_rev) l l' -> ~ In (NT 7) l -> ~ In (NT 7) l').
  { induction 1 as [l|a r b l' Hr _ IH]; auto. intros Hn. apply IH. rewrite in_app_iff in Hn. simpl in Hn.
    rewrite !in_app_iff. intros [Hi|[Hi|Hi]]; [tauto| |tauto].
    simpl in Hr. repeat destruct Hr as [<-|Hr]; try destruct Hr; simpl in Hi; intuition discriminate. }
  apply (G _ _ H); [|rewrite in_app_iff; simpl; auto]. vm_compute. intuition discriminate.
Qed.
Example C65_example : api_syntax nix0 tkix expr /\ api_syntax nix0 tkix g_rev /\ same_rules_any_order expr g_rev /\
  makes env0 expr P_expr [] /\ makes env0 g_rev P_rev [] /\ P_expr <> P_rev.
Proof.
  split; [apply (expr_api _)|]. split; [constructor; [constructor|apply Forall_rev, (expr_api _)]|]. split; [|split; [apply expr_makes|split; [mk|]]].
  - split; [reflexivity|]. exists (sx_rules expr), [], [rule_new_raw 7 [TM' kPlus; NT' nE] r_any].
    split; [rewrite app_nil_r; reflexivity|]. split; [|split; [constructor|]].
    + unfold g_rev. cbn [sx_rules]. etransitivity; [|apply Permutation_cons_append]. constructor. symmetry. apply Permutation_rev.
    + constructor; [apply rev_unreachable|constructor].
  - intros H. apply (f_equal (fun P => p_rules (pr_tab P))) in H. vm_compute in H. discriminate.
Qed.

(** With warnings the order decides: S ::= id | id with two reducers. *)
Definition g_two (f g : reducer nat tk nat) : stx := mk_syntax [rule_new_raw 0 [TM' kId] f; rule_new_raw 0 [TM' kId] g] 0.
Definition r_neg : reducer nat tk nat := fun _ => GOk 0.
Theorem C65_warnings_order_matters : exists (s s' : stx) P P' ws ws' w,
  api_syntax nix0 tkix s /\ api_syntax nix0 tkix s' /\ sx_start s = sx_start s' /\ Permutation (sx_rules s) (sx_rules s') /\
  makes env0 s P ws /\ makes env0 s' P' ws' /\ ws <> [] /\ returns tkix P w (ROk 5) /\ returns tkix P' w (ROk 0).
Proof.
  exists (g_two r_id r_neg), (g_two r_neg r_id), (fst (build env0 (g_two r_id r_neg))), (fst (build env0 (g_two r_neg r_id))),
    (snd (build env0 (g_two r_id r_neg))), (snd (build env0 (g_two r_neg r_id))), [(kId, 5)].
  split; [raw|]. split; [raw|]. split; [reflexivity|]. split; [apply perm_swap|]. split; [mk|]. split; [mk|]. split; [vm_compute; discriminate|].
  split; exists 20; vm_compute; reflexivity.
Qed.
Print Assumptions C65_warnings_order_matters.
(** the hypothesis of [C65_useless_rules] with warnings: a rule that cannot be reached between the two *)
Definition c_seven : crule nat tk nat := rule_new_raw 7 [TM' kId; NT' 0] r_neg.
Definition g_three : stx := mk_syntax [rule_new_raw 0 [TM' kId] r_id; c_seven; rule_new_raw 0 [TM' kId] r_neg] 0.
Example C65_example_useless : exists P P' ws ws', api_syntax nix0 tkix (g_two r_id r_neg) /\ api_syntax nix0 tkix g_three /\ with_useless_rules (g_two r_id r_neg) g_three /\
  makes env0 (g_two r_id r_neg) P ws /\ makes env0 g_three P' ws' /\ ws <> [].
Proof.
  exists (fst (build env0 (g_two r_id r_neg))), (fst (build env0 g_three)), (snd (build env0 (g_two r_id r_neg))), (snd (build env0 g_three)).
  split; [raw|]. split; [raw|]. split; [|split; [mk|split; [mk|vm_compute; discriminate]]].
  split; [reflexivity|]. apply ins_keep, ins_new, ins_keep, ins_nil. intros (l1 & l2 & H). change (NT (r_lhs (cr_rule c_seven))) with (NT 7) in H.
  assert (G : forall l l', rewr (gram g_three) l l' -> ~ In (NT 7) l -> ~ In (NT 7) l').
  { induction 1 as [l|a r b l' Hr _ IH]; auto. intros Hn. apply IH. rewrite in_app_iff in Hn. simpl in Hn.
    rewrite !in_app_iff. intros [Hi|[Hi|Hi]]; [tauto| |tauto].
    simpl in Hr. repeat destruct Hr as [<-|Hr]; try destruct Hr; simpl in Hi; intuition discriminate. }
  apply (G _ _ H); [|rewrite in_app_iff; simpl; auto]. vm_compute. intuition discriminate.
Qed.
