(** * Grammars for which error recovery takes quadratic time.  C73. *)
From Coq Require Import List Arith Lia Bool Sorted.
From Verif Require Import Lib Grammar LrModel LrSpec LrSets LrStates LrNew LrTop LrMono ParseModel Trees ParseSpec ParseInv ParseComplete GramFacts ParseTerm ParseTop ParseMore ParseCover ParseRecTerm LoopSpec ParseExamples PropParse SteadySpec ParseSteady RecFamily PropRecCost.
Import ListNotations.

(** C73: if the error symbol occurs in one rule only, no two error symbols can be adjacent, all symbols are productive and the
    grammar is steady (SteadySpec.v: recovery that is possible around and inside of something is possible behind it too), then
    at most [2 * n + 2] syntax errors are detected in an input of [n] tokens.  With C71, the number of turns is at most
    quadratic in [n]. *)
Theorem C73_errors_linear : forall N T E (nix : N -> nat) (tix : T -> nat) e (s : syntax N T E) P ws,
  api_syntax nix tix s -> makes e s P ws -> productive (gram s) -> errors_apart s -> one_error_rule (gram s) ->
  steady (gram s) (p_rules (pr_tab P)) (length (gram s)) ->
  forall fuel w, length (parse_errors tix P fuel w) <= 2 * length w + 2.
Proof.
  intros N T E nix tix e s P ws Ha Hmk Hp Hadj [k0 Hone] Hst fuel w. destruct (makes_made nix tix e s P ws Ha Hmk) as [ss Hm].
  rewrite (can_rules _ _ _ (md_can _ _ _ _ Hm)) in Hst. exact (errors_linear tix s P ws ss w Hm Hp Hadj Hst k0 Hone fuel).
Qed.
Print Assumptions C73_errors_linear.
Theorem C73_recovery_quadratic : forall N T E (nix : N -> nat) (tix : T -> nat) e (s : syntax N T E) P ws,
  api_syntax nix tix s -> makes e s P ws -> productive (gram s) -> errors_apart s -> one_error_rule (gram s) ->
  steady (gram s) (p_rules (pr_tab P)) (length (gram s)) -> ws = [] \/ loop_free (gram s) (sx_start s) ->
  exists C, forall fuel w, parse tix P fuel w = OutOfFuel -> fuel <= C * (length w + 1) ^ 2.
Proof.
  intros N T E nix tix e s P ws Ha Hmk Hp Hadj Hone Hst Hw.
  destruct (C71_cost_per_error _ _ _ nix tix e s P ws Ha Hmk ltac:(tauto)) as [C HC]. exists (3 * C). intros fuel w Hf.
  specialize (HC _ _ _ nix tix e s P ws eq_refl eq_refl Ha Hmk w fuel Hf).
  pose proof (C73_errors_linear _ _ _ nix tix e s P ws Ha Hmk Hp Hadj Hone Hst fuel w) as He.
  eapply Nat.le_trans; [exact HC|]. simpl. set (n := length w) in *. set (x := length (parse_errors tix P fuel w)) in *. clearbody n x.
  assert (C * (n + 1) * (x + 1) <= C * (n + 1) * (2 * n + 3)) by (apply Nat.mul_le_mono_l; lia). nia.
Qed.
Print Assumptions C73_recovery_quadratic.

(** ** A check of [steady] on the tables *)
Section Check.
  Variables (rules : list rule) (p : lr_parser) (bad : list (nat * nat)).
  Definition err_at (q : nat) : bool := match aget eqb q (p_errors p) with Some _ => true | None => false end.
  Definition mem (x : nat * nat) : bool := existsb (fun y => (fst x =? fst y) && (snd x =? snd y)) bad.
  Definition closed_rule (q : nat) (r : rule) : bool :=
    forallb (fun j => match run p q (firstn j (r_rhs r)) with
                      | Some q1 => (negb ((0 <? j) && err_at q1) || mem (q, r_lhs r)) &&
                          match nth_error (r_rhs r) j with Some (NT B) => negb (mem (q1, B)) || mem (q, r_lhs r) | _ => true end
                      | None => true
                      end) (seq 0 (S (length (r_rhs r)))).
  Definition still (q : nat) : bool :=
    match aget eqb q (p_action p) with Some row => forallb (fun c => match snd c with Shift _ => false | _ => true end) row | None => true end &&
    match aget eqb q (p_goto p) with Some [] => true | None => true | _ => false end.
  Definition steady_check : bool :=
    forallb (fun c => forallb (closed_rule (fst c)) rules) (p_action p) &&
    forallb (fun c => match run p (fst c) [NT (snd c)] with Some q => err_at q || still q | None => true end) bad.
End Check.
Lemma mem_In bad x : mem bad x = true <-> In x bad.
Proof.
  unfold mem. rewrite existsb_exists. destruct x as [a b]. cbn [fst snd]. split.
  - intros ([c d] & H & E0). cbn [fst snd] in E0. apply andb_true_iff in E0 as [E1 E2]. apply Nat.eqb_eq in E1, E2. subst. auto.
  - intros H. exists (a, b). cbn [fst snd]. rewrite !Nat.eqb_refl. auto.
Qed.
Lemma steady_by_check {N T E} (nix : N -> nat) (tix : T -> nat) e (s : syntax N T E) P ws bad : api_syntax nix tix s -> makes e s P ws ->
  steady_check (gram s) (pr_tab P) bad = true -> steady (gram s) (p_rules (pr_tab P)) (length (gram s)).
Proof.
  intros Ha Hmk Hc. destruct (makes_made nix tix e s P ws Ha Hmk) as [ss Hm]. pose proof (md_can _ _ _ _ Hm) as Hcan. rewrite (can_rules _ _ _ Hcan).
  set (p := pr_tab P) in *. set (rs := augment (gram s) (sx_start s) ss) in *. set (sr := length (gram s)) in *.
  unfold steady_check in Hc. apply andb_true_iff in Hc as [Hcl Hbad]. rewrite forallb_forall in Hcl, Hbad.
  assert (Herr : forall g q, state_of p g = Some q -> (err_at p q = true <-> wants rs sr g (TM TErr))) by (intros; apply (has_err_wants s P ws ss Hm); auto).
  assert (Hrow : forall g q, state_of p g = Some q -> exists row, In (q, row) (p_action p)).
  { intros g q Hq. destruct (can_action _ _ _ Hcan g q Hq) as (row & Hr & _). exists row. eapply (aget_In _ eqb_eq); eauto. }
  assert (Hst : forall g X, wants rs sr g X -> exists q, state_of p g = Some q).
  { intros g X (k & i & la & r & Hv & _). apply (can_state _ _ _ Hcan). eauto. }
  assert (G : forall A l, opens (gram s) A l -> forall d q q1, state_of p d = Some q -> state_of p (d ++ l) = Some q1 -> err_at p q1 = true -> In (q, A) bad).
  { induction 1 as [r j Hr Hj|r j B l Hr HB Ho IH]; intros d q q1 Hq Hq1 He1.
    - destruct (Hrow _ _ Hq) as [row Hrw]. specialize (Hcl _ Hrw). cbn [fst] in Hcl. rewrite forallb_forall in Hcl. specialize (Hcl r Hr).
      unfold closed_rule in Hcl. rewrite forallb_forall in Hcl. specialize (Hcl j ltac:(apply in_seq; lia)).
      unfold state_of in *. rewrite run_app, Hq in Hq1. rewrite Hq1, He1 in Hcl. rewrite (proj2 (Nat.ltb_lt 0 j)) in Hcl by lia. cbn [andb negb orb] in Hcl.
      apply andb_true_iff in Hcl as [Hcl _]. apply mem_In. auto.
    - destruct (Hrow _ _ Hq) as [row Hrw]. specialize (Hcl _ Hrw). cbn [fst] in Hcl. rewrite forallb_forall in Hcl. specialize (Hcl r Hr).
      unfold closed_rule in Hcl. rewrite forallb_forall in Hcl. specialize (Hcl j ltac:(apply in_seq; pose proof (nth_error_Some_lt _ _ _ HB); lia)).
      destruct (run p q (firstn j (r_rhs r))) as [q2|] eqn:E2.
      + assert (Hd2 : state_of p (d ++ firstn j (r_rhs r)) = Some q2) by (unfold state_of in *; rewrite run_app, Hq; auto).
        rewrite app_assoc in Hq1. specialize (IH _ _ _ Hd2 Hq1 He1). apply mem_In in IH. rewrite HB, IH in Hcl. apply andb_true_iff in Hcl as [_ Hcl]. cbn [negb orb] in Hcl. apply mem_In. auto.
      + exfalso. unfold state_of in *. rewrite app_assoc, run_app, run_app, Hq, E2 in Hq1. discriminate. }
  intros g u A l X Hwg Ho Hwl HwX. rewrite app_assoc in *.
  destruct (Hst _ _ Hwl) as [q1 Hq1]. destruct (Hst _ _ HwX) as [q2 Hq2].
  assert (Hd : exists q, state_of p (g ++ u) = Some q) by (unfold state_of in *; rewrite run_app in Hq2; destruct (run p (p_start p) (g ++ u)); [eauto|discriminate]). destruct Hd as [q Hq].
  pose proof (G A l Ho _ _ _ Hq Hq1 (proj2 (Herr _ _ Hq1) Hwl)) as Hin. specialize (Hbad _ Hin). cbn [fst snd] in Hbad.
  assert (Hr2 : run p q [NT A] = Some q2) by (unfold state_of in *; rewrite run_app, Hq in Hq2; exact Hq2). rewrite Hr2 in Hbad.
  apply orb_true_iff in Hbad as [Hb|Hb]; [apply (Herr _ _ Hq2); auto|]. exfalso. unfold still in Hb. apply andb_true_iff in Hb as [Hb1 Hb2].
  destruct X as [B|t].
  - assert (Hq3 : exists q3, state_of p ((g ++ u) ++ [NT A] ++ [NT B]) = Some q3) by (rewrite app_assoc; exact (wants_state (gram s) (sx_start s) ss P Hcan _ _ HwX)).
    destruct Hq3 as [q3 Hq3]. unfold state_of in *. rewrite app_assoc, run_app, Hq2 in Hq3. cbn [run next_state] in Hq3.
    destruct (aget eqb q2 (p_goto p)) as [[|c row]|]; try discriminate.
  - destruct (can_action _ _ _ Hcan _ _ Hq2) as (row & Hr & Hdec). rewrite Hr in Hb1. specialize (Hdec t). rewrite forallb_forall in Hb1.
    destruct (aget eqb t row) as [[q3|k|]|] eqn:Et; cbn [decides] in Hdec; try (destruct Hdec as [Hdec _]; contradiction).
    apply (aget_In _ eqb_eq) in Et. specialize (Hb1 _ Et). discriminate.
Qed.

(** ** Statements and blocks: P ::= P S | S;  S ::= E ; | { P } | error ;;  E ::= i | E i *)
Definition blocks : stx := mk_syntax
  [ rule_new_raw 0 [NT' 0; NT' 1] r_zero;
    rule_new_raw 0 [NT' 1] r_zero;
    rule_new_raw 1 [NT' 2; TM' 1] r_zero;
    rule_new_raw 1 [TM' 2; NT' 0; TM' 3] r_zero;
    rule_new_raw 1 [ER'; TM' 1] r_zero;
    rule_new_raw 2 [TM' 0] r_zero;
    rule_new_raw 2 [NT' 2; TM' 0] r_zero ] 0.
Definition P_blocks : prs := Eval vm_compute in fst (build env0 blocks).
Fixpoint bad_pairs (rules : list rule) (p : lr_parser) (n : nat) : list (nat * nat) :=
  match n with
  | 0 => []
  | S n => let b := bad_pairs rules p n in
      b ++ flat_map (fun c => flat_map (fun r => if closed_rule p b (fst c) r then [] else [(fst c, r_lhs r)]) rules) (p_action p)
  end.
Example C73_example : api_syntax nix0 tkix blocks /\ makes env0 blocks P_blocks [] /\ productive (gram blocks) /\ errors_apart blocks /\ one_error_rule (gram blocks) /\
  steady (gram blocks) (p_rules (pr_tab P_blocks)) (length (gram blocks)) /\
  (** { { i } i { ; } } *)
  length (parse_errors tkix P_blocks 100 [(2, 0); (2, 0); (0, 0); (3, 0); (0, 0); (2, 0); (1, 0); (3, 0); (3, 0)]) = 4.
Proof.
  assert (Ha : api_syntax nix0 tkix blocks) by raw. assert (Hk : makes env0 blocks P_blocks []) by mk.
  split; [exact Ha|]. split; [exact Hk|]. split.
  { assert (HE : der (gram blocks) (NT 2) [TSym 0]) by (apply single_der; simpl; auto 10).
    assert (HS : der (gram blocks) (NT 1) [TSym 0; TSym 1]).
    { apply (der_rule _ (mk_rule 1 [NT 2; TM (TSym 1)])); [simpl; auto 10|]. change [TSym 0; TSym 1] with ([TSym 0] ++ [TSym 1] ++ []). repeat constructor; auto. }
    assert (HP : der (gram blocks) (NT 0) [TSym 0; TSym 1]).
    { apply (der_rule _ (mk_rule 0 [NT 1])); [simpl; auto 10|]. change [TSym 0; TSym 1] with ([TSym 0; TSym 1] ++ []). constructor; [auto|constructor]. }
    intros r X Hr HX. simpl in Hr. repeat destruct Hr as [<-|Hr]; try destruct Hr; simpl in HX; repeat destruct HX as [<-|HX]; try destruct HX; eauto; eexists; constructor. }
  split.
  { apply token_apart. intros r Hr a b E0. simpl in Hr.
    repeat destruct Hr as [<-|Hr]; try destruct Hr; simpl in E0; destruct a as [|x1 [|x2 [|x3 [|x4 a]]]]; simpl in E0; try discriminate; injection E0; intros; subst; try discriminate; eauto. }
  split.
  { exists 4. intros k r Hr HX. do 7 (destruct k as [|k]; [injection Hr as <-; simpl in HX; intuition (discriminate || auto)|]). destruct k; discriminate. }
  split; [|vm_compute; reflexivity].
  apply (steady_by_check nix0 tkix env0 blocks P_blocks [] (bad_pairs (gram blocks) (pr_tab P_blocks) 4) Ha Hk). vm_compute. reflexivity.
Qed.
(** the grammar of C71_exponential has one rule with the error symbol too, and is not steady *)
Example C73_steady_needed : one_error_rule (gram lists) /\ ~ steady (gram lists) (p_rules (pr_tab P_lists)) (length (gram lists)) /\
  length (deep 6) = 31 /\ 2 * 31 + 2 < length (parse_errors tkix P_lists 600 (deep 6)).
Proof.
  assert (Hone : one_error_rule (gram lists)).
  { exists 2. intros k r Hr HX. do 5 (destruct k as [|k]; [injection Hr as <-; simpl in HX; intuition (discriminate || auto)|]). destruct k; discriminate. }
  assert (Hlt : 2 * 31 + 2 < length (parse_errors tkix P_lists 600 (deep 6))) by (apply Nat.ltb_lt; vm_compute; reflexivity).
  split; [exact Hone|]. split; [|split; [reflexivity|exact Hlt]]. intros Hst.
  pose proof (C73_errors_linear _ _ _ nix0 tkix env0 lists P_lists [] lists_api lists_makes lists_productive lists_apart Hone Hst 600 (deep 6)) as H.
  change (length (deep 6)) with 31 in H. lia.
Qed.
