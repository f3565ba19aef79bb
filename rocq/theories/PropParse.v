(** * Properties C21-C26, C28, C29: what [parse] accepts and computes

    In all theorems [s] is a syntax made with the public functions ([api_syntax]), and [P], [ws] are what
    [LR1Parser::new] returned for it, whatever the iteration orders of its hash maps ([makes]). *)
From Coq Require Import List Arith Lia Bool Sorted.
From Verif Require Import Lib Grammar LrModel LrSpec LrTop ParseModel Trees ParseSpec ParseInv ParseComplete GramFacts ParseTerm ParseTop ParseMore ParseOrigin ParseCover ParseRecTerm ParseAmb ParseExamples.
Import ListNotations.

Lemma free_clean {N T E} (tix : T -> nat) (s : syntax N T E) w A t : error_free s -> twf tix (gram s) w (NT A) t -> clean t = true.
Proof. intros Hf Ht. apply (proj1 (noerr_clean tix (gram s) w Hf) _ _ Ht). discriminate. Qed.

(** ** C37, C21: soundness *)
Theorem C37_sound_with_recovery : forall N T E (nix : N -> nat) (tix : T -> nat) e (s : syntax N T E) P ws w v,
  api_syntax nix tix s -> makes e s P ws -> returns tix P w (ROk v) ->
  exists t, twf tix (gram s) w (NT (sx_start s)) t /\ StronglySorted Nat.lt (leaves t) /\ ev (gens s) w t = GOk (NonTerminal v).
Proof.
  intros N T E nix tix e s P ws w v Ha Hmk Hr. destruct (makes_made nix tix e s P ws Ha Hmk) as [ss Hm].
  apply returns_full in Hr as (fuel & it & Hf).
  destruct (parse_sound tix (gram s) (sx_start s) ss P w (md_fresh _ _ _ _ Hm) (md_eoi _ _ _ _ Hm) (md_can _ _ _ _ Hm) (md_len _ _ _ _ Hm) fuel) as [H|H]; [congruence|].
  rewrite Hf in H. destruct H as (t & H1 & H2 & H3 & _). apply (twf_aug tix _ _ _ w (md_fresh _ _ _ _ Hm)) in H1.
  exists t. split; auto. split; auto. rewrite <- (ev_made tix s P ws ss w Hm _ _ H1). auto.
Qed.
Print Assumptions C37_sound_with_recovery.

Theorem C21_sound : forall N T E (nix : N -> nat) (tix : T -> nat) e (s : syntax N T E) P ws w v,
  api_syntax nix tix s -> makes e s P ws -> error_free s -> returns tix P w (ROk v) ->
  derivable tix s w /\ exists t, proper_tree tix s w t /\ ev (gens s) w t = GOk (NonTerminal v).
Proof.
  intros N T E nix tix e s P ws w v Ha Hmk Hef Hr. destruct (makes_made nix tix e s P ws Ha Hmk) as [ss Hm].
  apply returns_full in Hr as (fuel & it & Hf).
  destruct (parse_sound tix (gram s) (sx_start s) ss P w (md_fresh _ _ _ _ Hm) (md_eoi _ _ _ _ Hm) (md_can _ _ _ _ Hm) (md_len _ _ _ _ Hm) fuel) as [H|H]; [congruence|].
  rewrite Hf in H. destruct H as (t & H1 & H2 & H3 & _ & H4). apply (twf_aug tix _ _ _ w (md_fresh _ _ _ _ Hm)) in H1.
  assert (Hp : proper_tree tix s w t). { split; [split; auto|eapply free_clean; eauto]. }
  split; [apply derivable_tree; eauto|]. exists t. split; auto. rewrite <- (ev_made tix s P ws ss w Hm _ _ H1). auto.
Qed.
Print Assumptions C21_sound.
Example C21_example : api_syntax nix0 tkix expr /\ makes env0 expr P_expr [] /\ error_free expr /\ returns tkix P_expr w_expr (ROk 6).
Proof. split; [apply expr_api|]. split; [apply expr_makes|]. split; [apply expr_free|]. exists 100. vm_compute. reflexivity. Qed.

(** ** C22: completeness, also for grammars with error rules *)
Theorem C22_complete : forall N T E (nix : N -> nat) (tix : T -> nat) e (s : syntax N T E) P w,
  api_syntax nix tix s -> makes e s P [] -> derivable tix s w -> total_on tix s w -> exists v, returns tix P w (ROk v).
Proof.
  intros N T E nix tix e s P w Ha Hmk Hd Ht. destruct (makes_made nix tix e s P [] Ha Hmk) as [ss Hm].
  apply derivable_tree in Hd as [t Hp]. destruct (made_tree tix s P [] ss w Hm t eq_refl Hp) as (x & L & Hl & [[Hr _]|[_ [v ->]]]).
  - destruct Hp as [[Hw Hlv] Hc]. destruct Ht as [ty Ht]. destruct (proj1 (total_ev tix s w ty Ht) _ _ Hw) as (a & Ea & _); [rewrite Hlv; apply seq_sorted|].
    destruct (nt_value tix s w _ _ _ Hw Ea) as [v ->]. exists v. rewrite Ea in Hr. simpl in Hr. subst x. apply lends_ends in Hl. eapply ends_returns; eauto.
  - exists v. apply lends_ends in Hl. eapply ends_returns; eauto.
Qed.
Print Assumptions C22_complete.
Example C22_example : api_syntax nix0 tkix expr /\ makes env0 expr P_expr [] /\ derivable tkix expr w_expr /\ total_on tkix expr w_expr.
Proof. split; [apply expr_api|]. split; [apply expr_makes|]. split; [|apply expr_total]. apply derivable_tree. exists t_expr. apply t_expr_tree. Qed.

(** ** C24: unambiguity *)
Theorem C24_unambiguous_partial : forall N T E (nix : N -> nat) (tix : T -> nat) e (s : syntax N T E) P w t1 t2,
  api_syntax nix tix s -> makes e s P [] -> ~ cyclic (gram s) (sx_start s) ->
  proper_tree tix s w t1 -> proper_tree tix s w t2 -> t1 = t2.
Proof.
  intros N T E nix tix e s P w t1 t2 Ha Hmk Hc. destruct (makes_made nix tix e s P [] Ha Hmk) as [ss Hm].
  apply (unique_tree tix s P [] ss w Hm); auto.
Qed.
Print Assumptions C24_unambiguous_partial.

Lemma expr_not_cyclic rid : ~ cyclic (gram (expr_with rid)) (sx_start (expr_with rid)).
Proof.
  intros (r & Hr & Hl & Hrw).
  assert (G : forall l l', rewr (gram (expr_with rid)) l l' -> (exists k, In (TM k) l) \/ (l = [NT nT]) -> (exists k, In (TM k) l') \/ l' = [NT nT]).
  { intros l l' H. induction H as [l|l1 r0 l2 l' Hr0 H IH]; auto. intros HX. apply IH. simpl in Hr0. destruct HX as [(k & Hk)|HX].
    - left. exists k. rewrite in_app_iff in Hk. simpl in Hk. rewrite !in_app_iff. destruct Hk as [Hk|[Hk|Hk]]; auto. discriminate.
    - destruct l1 as [|a l1]; simpl in HX; [|injection HX as _ HX; destruct l1; discriminate]. injection HX as HA ->.
      repeat destruct Hr0 as [<-|Hr0]; try destruct Hr0; simpl in *; try discriminate HA; left; eexists; simpl; eauto. }
  simpl in Hr. destruct (G _ _ Hrw) as [(k & [Hk|[]])|Hx]; try discriminate.
  repeat destruct Hr as [<-|Hr]; try destruct Hr; simpl in *; try discriminate Hl; auto; left; eexists; simpl; eauto.
Qed.
Example C24_example : api_syntax nix0 tkix expr /\ makes env0 expr P_expr [] /\ ~ cyclic (gram expr) (sx_start expr) /\ proper_tree tkix expr w_expr t_expr.
Proof. split; [apply expr_api|]. split; [apply expr_makes|]. split; [apply expr_not_cyclic|apply t_expr_tree]. Qed.

(** the full claim is false: S ::= S | a gives no warning *)
Definition g_cyc : stx := mk_syntax [rule_new_raw 0 [NT' 0] r_one; rule_new_raw 0 [TM' kId] r_id] 0.
Theorem C24_unambiguous_refuted : exists (s : stx) P w t1 t2, api_syntax nix0 tkix s /\ makes env0 s P [] /\
  proper_tree tkix s w t1 /\ proper_tree tkix s w t2 /\ t1 <> t2.
Proof.
  exists g_cyc, (fst (build env0 g_cyc)), [(kId, 5)], (Node 1 [Leaf 0]), (Node 0 [Node 1 [Leaf 0]]).
  split; [raw|]. split; [mk|]. split; [apply tree_check_ok; reflexivity|]. split; [apply tree_check_ok; reflexivity|]. discriminate.
Qed.
Print Assumptions C24_unambiguous_refuted.

(** ** C25: the reducers evaluate the tree *)
Theorem C25_evaluation : forall N T E (nix : N -> nat) (tix : T -> nat) e (s : syntax N T E) P w t,
  api_syntax nix tix s -> makes e s P [] -> ~ cyclic (gram s) (sx_start s) -> proper_tree tix s w t ->
  yields tix P w (ev (gens s) w t) /\
  exists n, forall fuel, n <= fuel -> parse_calls tix P fuel w = fst (evl (gens s) w t).
Proof.
  intros N T E nix tix e s P w t Ha Hmk Hc Hp. destruct (makes_made nix tix e s P [] Ha Hmk) as [ss Hm].
  destruct (made_tree tix s P [] ss w Hm t eq_refl Hp) as (x & L & Hl & [[Hr HL]|[H _]]); [|contradiction].
  split; [eapply result_yields; eauto|]. destruct Hl as [m H]. exists m. intros fuel Hf. destruct (H fuel Hf) as (_ & H2 & _). unfold parse_calls. rewrite H2. auto.
Qed.
Print Assumptions C25_evaluation.
(** with conflicts the calls are still those of the evaluation of one tree *)
Theorem C25_calls_of_success : forall N T E (nix : N -> nat) (tix : T -> nat) e (s : syntax N T E) P ws w fuel v,
  api_syntax nix tix s -> makes e s P ws -> error_free s -> parse tix P fuel w = Ok (ROk v) ->
  exists t, proper_tree tix s w t /\ evl (gens s) w t = (parse_calls tix P fuel w, GOk (NonTerminal v)).
Proof.
  intros N T E nix tix e s P ws w fuel v Ha Hmk Hef Hpa. destruct (makes_made nix tix e s P ws Ha Hmk) as [ss Hm].
  unfold parse in Hpa. destruct (parse_full tix P fuel w) as [[o it]| |] eqn:Ef; try discriminate. simpl in Hpa. injection Hpa as ->.
  destruct (log_from tix s P ws ss w Hm Hef fuel _ [] [] 0 v it [] [] (at_init tix s P ss w) eq_refl Ef) as (t & H1 & H2 & H3).
  apply (twf_aug tix _ _ _ w (md_fresh _ _ _ _ Hm)) in H1. exists t. split; [split; [split; auto|eapply free_clean; eauto]|].
  rewrite <- (evl_made tix s P ws ss w Hm _ _ H1). exact H3.
Qed.
Print Assumptions C25_calls_of_success.
(** the first failing reducer call is the last call and its error is the result *)
Theorem C25_first_error_wins : forall N T E (nix : N -> nat) (tix : T -> nat) e (s : syntax N T E) P ws w fuel,
  api_syntax nix tix s -> makes e s P ws ->
  let ok c := exists v, call (gens s) (fst c) (snd c) = GOk v in
  match parse tix P fuel w with
  | Ok (RReducer x) => exists L k args, parse_calls tix P fuel w = L ++ [(k, args)] /\ Forall ok L /\ call (gens s) k args = GErr x
  | Ok _ | OutOfFuel => Forall ok (parse_calls tix P fuel w)
  | Panic => True
  end.
Proof.
  intros N T E nix tix e s P ws w fuel Ha Hmk ok. destruct (makes_made nix tix e s P ws Ha Hmk) as [ss Hm].
  pose proof (calls_end tix s P ws ss w Hm fuel _ [] [] 0 (at_init tix s P ss w)) as H. unfold parse, parse_full, parse_calls.
  destruct (loop (parse_step tix P) fuel (ps_init P w)) as [[[v| |x] it]| |]; simpl; auto. destruct H as (L & k & args & H1 & H2 & H3). exists L, k, args. auto.
Qed.
Print Assumptions C25_first_error_wins.
Example C25_example : api_syntax nix0 tkix expr13 /\ makes env0 expr13 P_expr13 [] /\ ~ cyclic (gram expr13) (sx_start expr13) /\
  proper_tree tkix expr13 w_expr13 t_expr /\ ev (gens expr13) w_expr13 t_expr = GErr 77 /\ parse tkix P_expr13 100 w_expr13 = Ok (RReducer 77) /\
  parse_calls tkix P_expr13 100 w_expr13 = [(3, [Terminal (0, 1)]); (1, [NonTerminal 1]); (3, [Terminal (0, 13)])].
Proof.
  split; [apply expr_api|]. split; [apply expr13_makes|]. split; [apply expr_not_cyclic|]. split; [apply t_expr_tree13|]. repeat split; vm_compute; reflexivity.
Qed.

(** ** C26: the arguments of the reducers; C41: the internal start rule *)
Theorem C26_arguments : forall N T E (nix : N -> nat) (tix : T -> nat) e (s : syntax N T E) P ws w fuel k args,
  api_syntax nix tix s -> makes e s P ws -> In (k, args) (parse_calls tix P fuel w) ->
  exists r, nth_error (sx_rules s) k = Some r /\ good_args tix w (r_rhs (cr_rule r)) args.
Proof.
  intros N T E nix tix e s P ws w fuel k args Ha Hmk Hin. destruct (makes_made nix tix e s P ws Ha Hmk) as [ss Hm].
  pose proof (calls_good tix s P ws ss w Hm fuel _ [] [] 0 (at_init tix s P ss w)) as H. rewrite Forall_forall in H. apply (H _ Hin).
Qed.
Print Assumptions C26_arguments.
(** [parse_calls] are the calls: reducers that agree on them give the same run *)
Theorem C26_calls_are_all : forall N T E (tix : T -> nat) (p : lr_parser) (gs gs' : list (reducer N T E)) w fuel,
  length gs = length gs' ->
  (forall k args, In (k, args) (parse_calls tix (mk_lr1 p gs) fuel w) -> call gs k args = call gs' k args) ->
  parse_full tix (mk_lr1 p gs) fuel w = parse_full tix (mk_lr1 p gs') fuel w /\ parse_calls tix (mk_lr1 p gs) fuel w = parse_calls tix (mk_lr1 p gs') fuel w.
Proof.
  intros N T E tix p gs gs' w fuel Hl. unfold parse_full, parse_calls. change (ps_init (mk_lr1 p gs') w) with (ps_init (mk_lr1 p gs) w).
  generalize (ps_init (mk_lr1 p gs) w). induction fuel as [|fuel IH]; intros st H; [auto|]. cbn [loop calls] in *.
  destruct (step_call_adequate tix p gs gs' st Hl) as [A B].
  { destruct (step_call tix (mk_lr1 p gs) st) as [[k args]|]; auto. apply H. left. reflexivity. }
  rewrite <- A, <- B. destruct (parse_step tix (mk_lr1 p gs) st) as [st'|]; auto. destruct (IH st') as [C D].
  { intros k args Hin. apply H. apply in_or_app. auto. }
  rewrite C, D. auto.
Qed.
Print Assumptions C26_calls_are_all.
Example C26_example : In (0, [NonTerminal 2; Terminal (kPlus, 0); NonTerminal 3]) (parse_calls tkix P_expr 100 w_expr).
Proof. vm_compute. tauto. Qed.

(** ** C45: where the values come from *)
(** A value passed for a nonterminal [A] was returned by an earlier call of the reducer of a rule for [A], and
    so was the result, with the start symbol for [A]. *)
Theorem C45_value_origin : forall N T E (nix : N -> nat) (tix : T -> nat) e (s : syntax N T E) P ws w fuel,
  api_syntax nix tix s -> makes e s P ws ->
  let from L A v := exists k args r, In (k, args) L /\ nth_error (sx_rules s) k = Some r /\ r_lhs (cr_rule r) = A /\ cr_gen r args = GOk v in
  (forall L1 k args L2, parse_calls tix P fuel w = L1 ++ (k, args) :: L2 ->
     exists r, nth_error (sx_rules s) k = Some r /\
       forall j A v, nth_error (r_rhs (cr_rule r)) j = Some (NT A) -> nth_error args j = Some (NonTerminal v) -> from L1 A v) /\
  (forall v, parse tix P fuel w = Ok (ROk v) -> from (parse_calls tix P fuel w) (sx_start s) v).
Proof.
  intros N T E nix tix e s P ws w fuel Ha Hmk from. destruct (makes_made nix tix e s P ws Ha Hmk) as [ss Hm].
  assert (Hfrom : forall L A v, (exists k args r, In (k, args) L /\ nth_error (gram s) k = Some r /\ r_lhs r = A /\ call (gens s) k args = GOk v) -> from L A v).
  { intros L A v (k & args & r & H1 & H2 & H3 & H4). unfold gram in H2. rewrite nth_error_map in H2. destruct (nth_error (sx_rules s) k) as [c|] eqn:Ec; [|discriminate].
    injection H2 as <-. exists k, args, c. unfold call, gens in H4. rewrite nth_error_map, Ec in H4. auto. }
  destruct (calls_origin tix s P ws ss w Hm fuel _ [] [] 0 [] (at_init tix s P ss w) (Forall_nil _)) as [H1 H2]. split.
  - intros L1 k args L2 He. destruct (H1 _ _ _ _ He) as [H3 H4]. unfold gram in H3. rewrite map_length in H3. destruct (nth_error (sx_rules s) k) as [r|] eqn:Er; [|apply nth_error_None in Er; lia].
    exists r. split; auto. intros j A v Hj Hv. apply Hfrom. apply (H4 j A v); auto. unfold gram. rewrite nth_error_map, Er. exact Hj.
  - intros v Hp. unfold parse in Hp. destruct (parse_full tix P fuel w) as [[o it]| |] eqn:Ef; try discriminate. simpl in Hp. injection Hp as ->.
    apply Hfrom. exact (H2 v it Ef).
Qed.
Print Assumptions C45_value_origin.
(** so a property of the values that the reducers keep holds of all values that they receive, and of the result *)
Theorem C45_typed : forall N T E (nix : N -> nat) (tix : T -> nat) e (s : syntax N T E) P ws w ty,
  api_syntax nix tix s -> makes e s P ws -> keeps tix ty s w -> forall fuel,
  (forall k args, In (k, args) (parse_calls tix P fuel w) ->
     exists r, nth_error (sx_rules s) k = Some r /\ good_args tix w (r_rhs (cr_rule r)) args /\ typed ty (r_rhs (cr_rule r)) args) /\
  (forall v, parse tix P fuel w = Ok (ROk v) -> ty (sx_start s) v).
Proof.
  intros N T E nix tix e s P ws w ty Ha Hmk Hk fuel. destruct (C45_value_origin _ _ _ nix tix e s P ws w fuel Ha Hmk) as [H1 H2]. cbv zeta in H1, H2.
  assert (Hc : forall n L1 k args L2, length L1 < n -> parse_calls tix P fuel w = L1 ++ (k, args) :: L2 ->
    exists r, nth_error (sx_rules s) k = Some r /\ good_args tix w (r_rhs (cr_rule r)) args /\ typed ty (r_rhs (cr_rule r)) args).
  { induction n as [|n IH]; intros L1 k args L2 Hn He; [lia|].
    destruct (C26_arguments _ _ _ nix tix e s P ws w fuel k args Ha Hmk) as (r & Hr & Hg); [rewrite He; apply in_or_app; simpl; auto|].
    exists r. split; auto. split; auto. intros j A v Hj Hv. destruct (H1 _ _ _ _ He) as (r0 & Hr0 & Ho). rewrite Hr in Hr0. injection Hr0 as <-.
    destruct (Ho j A v Hj Hv) as (k' & args' & r' & Hin & Hr' & <- & Hv'). apply in_split in Hin as (M1 & M2 & ->).
    destruct (IH M1 k' args' (M2 ++ (k, args) :: L2)) as (r1 & Hr1 & Hg1 & Ht1); [rewrite app_length in Hn; simpl in Hn; lia|rewrite He, <- app_assoc; reflexivity|].
    rewrite Hr' in Hr1. injection Hr1 as <-. eapply Hk; eauto. eapply nth_error_In; eauto. }
  assert (Hall : forall k args, In (k, args) (parse_calls tix P fuel w) ->
     exists r, nth_error (sx_rules s) k = Some r /\ good_args tix w (r_rhs (cr_rule r)) args /\ typed ty (r_rhs (cr_rule r)) args).
  { intros k args Hin. apply in_split in Hin as (M1 & M2 & He). eapply Hc; eauto. }
  split; auto. intros v Hp. destruct (H2 v Hp) as (k & args & r & Hin & Hr & <- & Hv). destruct (Hall _ _ Hin) as (r1 & Hr1 & Hg & Ht).
  rewrite Hr in Hr1. injection Hr1 as <-. eapply Hk; eauto. eapply nth_error_In; eauto.
Qed.
Print Assumptions C45_typed.
(** S ::= A B with two kinds of values: odd numbers for A, even ones for B *)
Definition r_a : reducer nat tk nat := fun l => match l with [Terminal x] => GOk (2 * snd x + 1) | _ => GPanic end.
Definition r_b : reducer nat tk nat := fun l => match l with [Terminal x] => GOk (2 * snd x) | _ => GPanic end.
Definition r_ab : reducer nat tk nat := fun l => match l with [NonTerminal a; NonTerminal b] => if andb (Nat.odd a) (Nat.even b) then GOk (a + b) else GPanic | _ => GPanic end.
Definition g_ab : stx := mk_syntax [rule_new_raw 0 [NT' 1; NT' 2] r_ab; rule_new_raw 1 [TM' 0] r_a; rule_new_raw 2 [TM' 0] r_b] 0.
Definition ty_ab (A v : nat) : Prop := match A with 1 => Nat.odd v = true | 2 => Nat.even v = true | _ => True end.
Lemma g_ab_total w : total_typed tkix ty_ab g_ab w.
Proof.
  intros r args Hr (Hf & _) Ht. simpl in Hr. repeat destruct Hr as [<-|Hr]; try destruct Hr; simpl in *.
  all: repeat match goal with H : Forall2 _ (_ :: _) _ |- _ => inversion H; clear H; subst | H : Forall2 _ [] _ |- _ => inversion H; clear H; subst
    | H : fits _ _ ?a |- _ => destruct a; simpl in H; try contradiction end.
  - pose proof (Ht 0 1 _ eq_refl eq_refl) as Ha. pose proof (Ht 1 2 _ eq_refl eq_refl) as Hb. simpl in Ha, Hb. cbn [r_ab cr_gen rule_new_raw]. unfold r_ab. rewrite Ha, Hb. eexists. split; [reflexivity|exact I].
  - eexists. split; [reflexivity|]. unfold ty_ab. cbn [r_lhs cr_rule rule_new_raw]. rewrite Nat.add_1_r, Nat.odd_succ, Nat.even_mul. reflexivity.
  - eexists. split; [reflexivity|]. unfold ty_ab. cbn [r_lhs cr_rule rule_new_raw]. rewrite Nat.even_mul. reflexivity.
Qed.
Example C45_example : api_syntax nix0 tkix g_ab /\ makes env0 g_ab (fst (build env0 g_ab)) [] /\ keeps tkix ty_ab g_ab [(0, 3); (0, 4)] /\
  returns tkix (fst (build env0 g_ab)) [(0, 3); (0, 4)] (ROk 15) /\ ~ keeps tkix ty_ab (mk_syntax (sx_rules g_ab ++ [rule_new_raw 1 [TM' 0] r_b]) 0) [(0, 3)].
Proof.
  split; [raw|]. split; [mk|]. split; [|split].
  - intros r args v Hr Hg Ht Hv. destruct (g_ab_total _ r args Hr Hg Ht) as (v' & Hv' & H). congruence.
  - exists 100. vm_compute. reflexivity.
  - intros H. specialize (H (rule_new_raw 1 [TM' 0] r_b) [Terminal (0, 3)] 6). simpl in H. discriminate H; auto; [|intros [|[|j]] A v; discriminate].
    split; [repeat constructor|]. split; [|intros sl [Q|[]]; discriminate]. exists [0]. split; [repeat constructor|]. simpl. repeat constructor.
Qed.

Theorem C41_start_rule : forall N T E (nix : N -> nat) (tix : T -> nat) e (s : syntax N T E) P ws,
  api_syntax nix tix s -> makes e s P ws ->
  exists ss, p_rules (pr_tab P) = gram s ++ [mk_rule ss [NT (sx_start s)]] /\
    (forall r, In r (gram s) -> r_lhs r <> ss /\ ~ In (NT ss) (r_rhs r)) /\
    (** its reducer is never called *)
    (forall fuel w k args, In (k, args) (parse_calls tix P fuel w) -> k < length (gram s)) /\
    (forall fuel w g, parse_full tix (mk_lr1 (pr_tab P) (gens s ++ [g])) fuel w = parse_full tix P fuel w).
Proof.
  intros N T E nix tix e s P ws Ha Hmk. destruct (makes_made nix tix e s P ws Ha Hmk) as [ss Hm]. exists ss. split; [|split; [|split]].
  - apply (can_rules _ _ _ (md_can _ _ _ _ Hm)).
  - intros r Hr. split; [eapply ss_lhs; eauto; apply (md_fresh _ _ _ _ Hm)|eapply ss_rhs; eauto; apply (md_fresh _ _ _ _ Hm)].
  - intros fuel w k args Hin. destruct (C26_arguments _ _ _ nix tix e s P ws w fuel k args Ha Hmk Hin) as (r & Hr & _).
    apply nth_error_Some_lt in Hr. unfold gram. rewrite map_length. auto.
  - intros fuel w g. symmetry. destruct P as [p gs]. cbn [pr_tab]. pose proof (md_gens _ _ _ _ Hm) as Hg. cbn [pr_gens] in Hg.
    apply C26_calls_are_all; [rewrite Hg, !app_length; reflexivity|].
    intros k args Hin. destruct (C26_arguments _ _ _ nix tix e s _ ws w fuel k args Ha Hmk Hin) as (r & Hr & _). apply nth_error_Some_lt in Hr.
    rewrite Hg. unfold call. rewrite !nth_error_app1; auto; unfold gens; rewrite map_length; auto.
Qed.
Print Assumptions C41_start_rule.
Example C41_example : api_syntax nix0 tkix expr /\ makes env0 expr P_expr [] /\ start_symbol (gram expr) = Ok 2 /\ length (parse_calls tkix P_expr 100 w_expr) = 8.
Proof. split; [apply expr_api|]. split; [apply expr_makes|]. split; vm_compute; reflexivity. Qed.

(** ** C28: no panics, except those of reducers *)
Lemma call_panics {N T E} (tix : T -> nat) (P : parser N T E) st k args :
  step_call tix P st = Some (k, args) -> call (pr_gens P) k args = GPanic -> parse_step tix P st = inr Panic.
Proof.
  unfold step_call, parse_step, call. cbv zeta. intros H Hc. destruct (ps_buf (ps_read tix st)) as [|[t i] buf]; [discriminate|].
  destruct (act (pr_tab P) (ps_state (ps_read tix st)) t) as [[[q|k'|]|]| |]; try discriminate.
  destruct (nth_error (p_rules (pr_tab P)) k') as [r|]; [|discriminate]. destruct (length (ps_stack (ps_read tix st)) <? length (r_rhs r)); [discriminate|].
  destruct (reduce_args _ _ _) as [a| |]; try discriminate. injection H as -> ->. destruct (nth_error (pr_gens P) k) as [g|]; auto. rewrite Hc. auto.
Qed.
Lemma calls_panic {N T E} (tix : T -> nat) (P : parser N T E) k args : call (pr_gens P) k args = GPanic ->
  forall fuel st, In (k, args) (calls tix P fuel st) -> loop (parse_step tix P) fuel st = Panic.
Proof.
  intros Hc. induction fuel as [|f IH]; intros st H; cbn [calls loop] in *; [destruct H|]. apply in_app_or in H as [H|H].
  - destruct (step_call tix P st) as [c|] eqn:Es; [|destruct H]. destruct H as [->|[]]. rewrite (call_panics tix P st k args Es Hc). reflexivity.
  - destruct (parse_step tix P st) as [st'|r]; [auto|destruct H].
Qed.
Theorem C28_no_panic_partial : forall N T E (nix : N -> nat) (tix : T -> nat) e (s : syntax N T E) P ws w,
  api_syntax nix tix s -> makes e s P ws -> w <> [] \/ error_free s ->
  (panics tix P w <-> exists fuel L k args, parse_calls tix P fuel w = L ++ [(k, args)] /\ call (gens s) k args = GPanic).
Proof.
  intros N T E nix tix e s P ws w Ha Hmk Hw. destruct (makes_made nix tix e s P ws Ha Hmk) as [ss Hm]. split.
  - intros Hpa. apply panics_full in Hpa as [fuel Hf]. pose proof (calls_end tix s P ws ss w Hm fuel _ [] [] 0 (at_init tix s P ss w)) as H.
    unfold parse_full in Hf. rewrite Hf in H. destruct H as [(L & k & args & H1 & H2 & _)|[H1 H2]]; [|destruct Hw; contradiction].
    exists fuel, L, k, args. auto.
  - intros (fuel & L & k & args & H1 & H2). apply panics_full. exists fuel. apply (calls_panic tix P k args).
    + rewrite (md_gens _ _ _ _ Hm). unfold call in *. destruct (nth_error (gens s) k) as [g|] eqn:Eg.
      * rewrite nth_error_app1 by (apply nth_error_Some; congruence). rewrite Eg. auto.
      * apply nth_error_None in Eg. rewrite nth_error_app2 by auto. destruct (k - length (gens s)) as [|[|n]]; auto.
    + fold (parse_calls tix P fuel w). rewrite H1. apply in_or_app. simpl. auto.
Qed.
Print Assumptions C28_no_panic_partial.
(** so there is none when no reducer panics on arguments of the shape of its rule; the shape may include
    any property of the values of each nonterminal that the reducers keep *)
Corollary C28_no_panic_safe_reducers_partial : forall N T E (nix : N -> nat) (tix : T -> nat) e (s : syntax N T E) P ws w ty,
  api_syntax nix tix s -> makes e s P ws -> w <> [] \/ error_free s -> keeps tix ty s w ->
  (forall r args, In r (sx_rules s) -> good_args tix w (r_rhs (cr_rule r)) args -> typed ty (r_rhs (cr_rule r)) args -> cr_gen r args <> GPanic) -> ~ panics tix P w.
Proof.
  intros N T E nix tix e s P ws w ty Ha Hmk Hw Hk Hs Hpa. destruct (proj1 (C28_no_panic_partial _ _ _ nix tix e s P ws w Ha Hmk Hw) Hpa) as (fuel & L & k & args & H1 & H2).
  destruct (proj1 (C45_typed _ _ _ nix tix e s P ws w ty Ha Hmk Hk fuel) k args) as (r & Hr & Hg & Ht); [rewrite H1; apply in_or_app; simpl; auto|].
  apply (Hs r args); auto; [eapply nth_error_In; eauto|]. unfold call, gens in H2. rewrite nth_error_map, Hr in H2. auto.
Qed.
Print Assumptions C28_no_panic_safe_reducers_partial.
Example C28_example : api_syntax nix0 tkix expr /\ makes env0 expr P_expr [] /\ error_free expr /\ w_bad <> [] /\ keeps tkix (fun _ _ => True) expr w_bad /\
  forall r args, In r (sx_rules expr) -> good_args tkix w_bad (r_rhs (cr_rule r)) args -> cr_gen r args <> GPanic.
Proof.
  split; [apply expr_api|]. split; [apply expr_makes|]. split; [apply expr_free|]. split; [discriminate|]. split; [intros r args v _ _ _ _; exact I|].
  intros r args H1 H2. destruct (expr_shapes w_bad r args H1 H2) as [v ->]. discriminate.
Qed.
(** the full claim is false: S ::= error on the empty input *)
Definition r_err : reducer nat tk nat := fun l => GOk (length l).
Definition g_err : stx := mk_syntax [rule_new_raw 0 [ER'] r_err] 0.
Theorem C28_no_panic_refuted : exists (s : stx) P, api_syntax nix0 tkix s /\ makes env0 s P [] /\
  (forall r args, In r (sx_rules s) -> cr_gen r args <> GPanic) /\ panics tkix P [].
Proof.
  exists g_err, (fst (build env0 g_err)). split; [raw|]. split; [mk|]. split; [intros r args [<-|[]]; discriminate|]. exists 100. vm_compute. reflexivity.
Qed.
Print Assumptions C28_no_panic_refuted.

(** ** C29: termination; C23: the language is decided *)
Theorem C29_terminates_partial : forall N T E (nix : N -> nat) (tix : T -> nat) e (s : syntax N T E) P w,
  api_syntax nix tix s -> makes e s P [] -> (productive (gram s) /\ errors_apart s) \/ derivable tix s w ->
  (exists o, returns tix P w o) \/ panics tix P w.
Proof.
  intros N T E nix tix e s P w Ha Hmk H. destruct (makes_made nix tix e s P [] Ha Hmk) as [ss Hm].
  assert (G : exists r, ends (parse_step tix P) (ps_init P w) r /\ r <> OutOfFuel).
  { destruct H as [[Hp Hap]|Hd].
    - apply (stops_all tix s P [] ss w Hm (rstep_wf _ _ _ (md_fresh _ _ _ _ Hm) (cf_of s P [] ss Hm eq_refl) Hp) Hp Hap _ [] [] 0 (at_init tix s P ss w)).
    - apply derivable_tree in Hd as [t Ht]. destruct (made_tree tix s P [] ss w Hm t eq_refl Ht) as (x & L & Hl & Hx). apply lends_ends in Hl. exists x. split; auto.
      destruct Hx as [[Hx _]|[_ [v ->]]]; [|discriminate]. destruct (ev (gens s) w t) as [[v|y|l]|y|]; simpl in Hx; try contradiction; try (subst; discriminate).
      destruct Hx as [it ->]. discriminate. }
  destruct G as ([[o it]| |] & Hr & Hn); [| |congruence].
  - left. exists o. eapply ends_returns; eauto.
  - right. apply ends_panics; auto.
Qed.
Print Assumptions C29_terminates_partial.
(** the condition on error symbols holds if there are none, or if each is followed by a token in its rule *)
Lemma free_apart {N T E} (s : syntax N T E) : error_free s -> errors_apart s.
Proof.
  intros Hf u v Hd. assert (G : (forall X w, der (gram s) X w -> X <> TM TErr -> ~ In TErr w) /\ (forall l w, ders (gram s) l w -> ~ In (TM TErr) l -> ~ In TErr w)).
  { apply der_ders_ind.
    - intros t Hn [->|[]]. congruence.
    - intros r w Hr _ IH _. apply IH. apply Hf. auto.
    - simpl. auto.
    - intros X l w1 w2 _ IH1 _ IH2 Hn Hin. simpl in Hn. apply in_app_or in Hin as [Hin|Hin]; [apply IH1 in Hin|apply IH2 in Hin]; tauto. }
  apply (proj1 G _ _ Hd); [discriminate|]. apply in_or_app. simpl. auto.
Qed.
Lemma sym_eq_err X : {X = TM TErr} + {X <> TM TErr}.
Proof. destruct X as [A|[k| |]]; try (right; discriminate). left; auto. Qed.
Definition error_then_token (l : list sym) : Prop := forall a b, l = a ++ TM TErr :: b -> exists k b', b = TM (TSym k) :: b'.
Lemma token_apart {N T E} (s : syntax N T E) : (forall r, In r (gram s) -> error_then_token (r_rhs r)) -> errors_apart s.
Proof.
  intros Ht u v Hd.
  assert (G : (forall X w, der (gram s) X w -> X <> TM TErr -> forall a b, w = a ++ TErr :: b -> exists k b', b = TSym k :: b') /\
              (forall l w, ders (gram s) l w -> error_then_token l -> forall a b, w = a ++ TErr :: b -> exists k b', b = TSym k :: b')).
  { apply der_ders_ind.
    - intros t Hn a b H. destruct a as [|x [|y a]]; simpl in H; try discriminate. injection H as ->. congruence.
    - intros r w Hr _ IH _. apply IH. auto.
    - intros _ a b H. destruct a; discriminate.
    - intros X l w1 w2 HX IH1 Hl IH2 Hg a b H. assert (Hg' : error_then_token l) by (intros a' b' ->; apply (Hg (X :: a') b'); auto).
      apply app_eq_app in H as (m & [[H1 H2]|[H1 H2]]).
      + destruct m as [|x m]; simpl in H2.
        * apply (IH2 Hg' []). auto.
        * injection H2 as <- ->. destruct (sym_eq_err X) as [->|HX'].
          -- destruct (Hg [] l eq_refl) as (k & b' & ->). inversion HX as [t Ht0 Ew|]. rewrite <- Ew in H1. destruct a as [|? [|]]; try discriminate. injection H1 as <-. clear Ew.
             inversion Hl as [|? ? u1 u2 Hk Hr]; subst. inversion Hk; subst. simpl. eauto.
          -- destruct (IH1 HX' a m) as (k & b' & ->); auto. simpl. eauto.
      + destruct (IH2 Hg' m b) as (k & b' & ->); eauto. }
  destruct (proj1 G _ _ Hd ltac:(discriminate) u (TErr :: v) eq_refl) as (k & b' & H). discriminate.
Qed.
Lemma single_der rs A k : In (mk_rule A [TM (TSym k)]) rs -> der rs (NT A) [TSym k].
Proof. intros H. apply (der_rule rs _ _ H). change [TSym k] with ([TSym k] ++ []). constructor; constructor. Qed.
Lemma expr_productive rid : productive (gram (expr_with rid)).
Proof.
  assert (HT : der (gram (expr_with rid)) (NT nT) [TSym kId]) by (apply single_der; simpl; auto).
  assert (HE : der (gram (expr_with rid)) (NT nE) [TSym kId]).
  { apply (der_rule _ (mk_rule nE [NT nT])); [simpl; auto|]. change [TSym kId] with ([TSym kId] ++ []). constructor; [auto|constructor]. }
  intros r X Hr HX. simpl in Hr. repeat destruct Hr as [<-|Hr]; try destruct Hr; simpl in HX; repeat destruct HX as [<-|HX]; try destruct HX; eauto; eexists; constructor.
Qed.
Lemma stmts_productive : productive (gram stmts).
Proof.
  assert (HT : der (gram stmts) (NT nT) [TSym kId]) by (apply single_der; simpl; auto 10).
  assert (HE : der (gram stmts) (NT nE) [TSym kId]).
  { apply (der_rule _ (mk_rule nE [NT nT])); [simpl; auto 10|]. change [TSym kId] with ([TSym kId] ++ []). constructor; [auto|constructor]. }
  assert (HS : der (gram stmts) (NT nSt) [TSym kId; TSym kSemi]).
  { apply (der_rule _ (mk_rule nSt [NT nE; TM (TSym kSemi)])); [simpl; auto 10|]. change [TSym kId; TSym kSemi] with ([TSym kId] ++ [TSym kSemi] ++ []). repeat constructor; auto. }
  assert (HP : der (gram stmts) (NT nP) [TSym kId; TSym kSemi]).
  { apply (der_rule _ (mk_rule nP [NT nSt])); [simpl; auto 10|]. change [TSym kId; TSym kSemi] with ([TSym kId; TSym kSemi] ++ []). constructor; [auto|constructor]. }
  intros r X Hr HX. simpl in Hr. repeat destruct Hr as [<-|Hr]; try destruct Hr; simpl in HX; repeat destruct HX as [<-|HX]; try destruct HX; eauto; eexists; constructor.
Qed.
Lemma stmts_apart : errors_apart stmts.
Proof.
  apply token_apart. intros r Hr a b E0. simpl in Hr.
  repeat destruct Hr as [<-|Hr]; try destruct Hr; simpl in E0; destruct a as [|x1 [|x2 [|x3 [|x4 a]]]]; simpl in E0; try discriminate; injection E0; intros; subst; try discriminate; eauto.
Qed.
Example C29_example : api_syntax nix0 tkix stmts /\ makes env0 stmts P_stmts [] /\ productive (gram stmts) /\ errors_apart stmts /\ ~ error_free stmts /\
  parse_errors tkix P_stmts 100 w_rec <> [] /\ returns tkix P_stmts w_rec (ROk 406).
Proof.
  split; [apply stmts_api|]. split; [apply stmts_makes|]. split; [apply stmts_productive|]. split; [apply stmts_apart|]. split.
  - intros H. apply (H (mk_rule nSt [TM TErr; TM (TSym kSemi)])); simpl; auto 10.
  - split; [vm_compute; discriminate|]. exists 100. vm_compute. reflexivity.
Qed.

Lemma diverges_by (P : prs) w n st (I : pstate nat tk -> Prop) :
  (forall fuel, parse_full tkix P (n + fuel) w = loop (parse_step tkix P) fuel st) -> I st ->
  (forall x, I x -> exists y, parse_step tkix P x = inl y /\ I y) -> diverges tkix P w.
Proof.
  intros Hn Hi Hs. assert (G : forall fuel x, I x -> loop (parse_step tkix P) fuel x = OutOfFuel).
  { induction fuel as [|fuel IH]; intros x Hx; auto. simpl. destruct (Hs x Hx) as (y & -> & Hy). auto. }
  apply diverges_full. intros fuel. destruct (parse_full tkix P fuel w) as [r| |] eqn:Ef; auto.
  - exfalso. assert (H : parse_full tkix P (n + fuel) w = Ok r) by (eapply loop_mono; [exact Ef|discriminate|lia]). rewrite Hn, G in H; auto. discriminate.
  - exfalso. assert (H : parse_full tkix P (n + fuel) w = Panic) by (eapply loop_mono; [exact Ef|discriminate|lia]). rewrite Hn, G in H; auto. discriminate.
Qed.

(** S ::= A S | B C;  A ::= (nothing);  B ::= a;  C ::= C b: no warning, no error rule; C derives nothing *)
Definition r_any : reducer nat tk nat := fun l => GOk (length l).
Definition g_unprod : stx := mk_syntax [rule_new_raw 0 [NT' 1; NT' 0] r_any; rule_new_raw 0 [NT' 2; NT' 3] r_any; rule_new_raw 1 [] r_any;
  rule_new_raw 2 [TM' 0] r_any; rule_new_raw 3 [NT' 3; TM' 1] r_any] 0.
(** L ::= error L | x: no warning *)
Definition g_errloop : stx := mk_syntax [rule_new_raw 0 [ER'; NT' 0] r_any; rule_new_raw 0 [TM' 0] r_any] 0.
(** S ::= A S | B;  A ::= (nothing);  B ::= (nothing): no error rule, two warnings *)
Definition g_rrloop : stx := mk_syntax [rule_new_raw 0 [NT' 1; NT' 0] r_any; rule_new_raw 0 [NT' 2] r_any; rule_new_raw 1 [] r_any; rule_new_raw 2 [] r_any] 0.
Definition P_unprod : prs := Eval vm_compute in fst (build env0 g_unprod).
Definition P_errloop : prs := Eval vm_compute in fst (build env0 g_errloop).
Definition P_rrloop : prs := Eval vm_compute in fst (build env0 g_rrloop).

Lemma unprod_diverges : diverges tkix P_unprod [(0, 0)].
Proof.
  apply (diverges_by _ _ 1 (mk_ps [] 1 [(0, 0)] [(TSym 0, 0)] [(0, ENon 0 1)] []) (fun x => exists st, x = mk_ps [] 1 [(0, 0)] [(TSym 0, 0)] st [])).
  - intros fuel. reflexivity.
  - eauto.
  - intros x [st ->]. eexists. split; [reflexivity|]. eexists. reflexivity.
Qed.
Lemma errloop_diverges : diverges tkix P_errloop [(1, 0)].
Proof.
  apply (diverges_by _ _ 1 (mk_ps [] 1 [(1, 0)] [(TSym 1, 0)] [(0, EErr 0 0)] [0]) (fun x => exists q e st, x = mk_ps [] 1 [(1, 0)] [(TSym 1, 0)] ((q, e) :: st) [0])).
  - intros fuel. reflexivity.
  - eauto.
  - intros x (q & e & st & ->). eexists. split; [vm_compute; reflexivity|]. do 3 eexists. reflexivity.
Qed.
Lemma rrloop_diverges : diverges tkix P_rrloop [].
Proof.
  apply (diverges_by _ _ 1 (mk_ps [] 1 [] [(TEoi, 0)] [(0, ENon 0 0)] []) (fun x => exists st, x = mk_ps [] 1 [] [(TEoi, 0)] st [])).
  - intros fuel. reflexivity.
  - eauto.
  - intros x [st ->]. eexists. split; [reflexivity|]. eexists. reflexivity.
Qed.
Ltac errfree := let r := fresh in let H := fresh in intros r H; simpl in H; repeat destruct H as [<-|H]; simpl; intuition discriminate.
(** The full claim is false, and none of the three conditions can be dropped: a grammar without warnings and
    error rules one of whose symbols derives nothing; a productive grammar without warnings in which error
    symbols can be neighbours; a productive grammar without error rules with warnings. *)
Theorem C29_terminates_refuted :
  (exists (s : stx) P w, api_syntax nix0 tkix s /\ makes env0 s P [] /\ error_free s /\ diverges tkix P w) /\
  (exists (s : stx) P w, api_syntax nix0 tkix s /\ makes env0 s P [] /\ productive (gram s) /\ diverges tkix P w) /\
  (exists (s : stx) P ws w, api_syntax nix0 tkix s /\ makes env0 s P ws /\ error_free s /\ productive (gram s) /\ diverges tkix P w).
Proof.
  split; [|split].
  - exists g_unprod, P_unprod, [(0, 0)]. split; [raw|]. split; [mk|]. split; [errfree|apply unprod_diverges].
  - exists g_errloop, P_errloop, [(1, 0)]. split; [raw|]. split; [mk|]. split; [|apply errloop_diverges].
    assert (HL : der (gram g_errloop) (NT 0) [TSym 0]) by (apply single_der; simpl; auto).
    intros r X Hr HX. simpl in Hr. repeat destruct Hr as [<-|Hr]; try destruct Hr; simpl in HX; repeat destruct HX as [<-|HX]; try destruct HX; eauto; eexists; constructor.
  - exists g_rrloop, P_rrloop. eexists. exists []. split; [raw|]. split; [mk|]. split; [errfree|]. split; [|apply rrloop_diverges].
    assert (H1 : der (gram g_rrloop) (NT 1) []) by (apply (der_rule _ (mk_rule 1 [])); [simpl; auto|constructor]).
    assert (H2 : der (gram g_rrloop) (NT 2) []) by (apply (der_rule _ (mk_rule 2 [])); [simpl; auto|constructor]).
    assert (H0 : der (gram g_rrloop) (NT 0) []). { apply (der_rule _ (mk_rule 0 [NT 2])); [simpl; auto|]. change (@nil term) with (@nil term ++ []). constructor; [auto|constructor]. }
    intros r X Hr HX. simpl in Hr. repeat destruct Hr as [<-|Hr]; try destruct Hr; simpl in HX; repeat destruct HX as [<-|HX]; try destruct HX; eauto.
Qed.
Print Assumptions C29_terminates_refuted.

Theorem C23_decides_partial : forall N T E (nix : N -> nat) (tix : T -> nat) e (s : syntax N T E) P w,
  api_syntax nix tix s -> makes e s P [] -> error_free s -> productive (gram s) -> total_on tix s w ->
  (derivable tix s w /\ exists v, returns tix P w (ROk v)) \/ (~ derivable tix s w /\ returns tix P w RNotFound).
Proof.
  intros N T E nix tix e s P w Ha Hmk Hef Hp Ht0. destruct Ht0 as [ty Ht] eqn:Et. clear Et. pose proof (total_keeps tix s w ty Ht) as Hk.
  destruct (C29_terminates_partial _ _ _ nix tix e s P w Ha Hmk (or_introl (conj Hp (free_apart s Hef)))) as [[o Ho]|Hpa].
  - destruct o as [v| |x].
    + left. split; [eapply C21_sound; eauto|eauto].
    + right. split; auto. intros Hd. destruct (C22_complete _ _ _ nix tix e s P w Ha Hmk Hd Ht0) as [v Hv]. pose proof (returns_det tix P _ _ _ Ho Hv). discriminate.
    + exfalso. destruct Ho as [fuel Hf]. pose proof (C25_first_error_wins _ _ _ nix tix e s P [] w fuel Ha Hmk) as H. cbv zeta in H. rewrite Hf in H.
      destruct H as (L & k & args & H1 & _ & H2). destruct (proj1 (C45_typed _ _ _ nix tix e s P [] w ty Ha Hmk Hk fuel) k args) as (r & Hr & Hg & Hty); [rewrite H1; apply in_or_app; simpl; auto|].
      destruct (Ht r args (nth_error_In _ _ Hr) Hg Hty) as (v & Hv & _). unfold call, gens in H2. rewrite nth_error_map, Hr in H2. simpl in H2. congruence.
  - exfalso. eapply (C28_no_panic_safe_reducers_partial _ _ _ nix tix e s P [] w ty Ha Hmk (or_intror Hef) Hk); auto.
    intros r args Hr Hg Hty. destruct (Ht r args Hr Hg Hty) as (v & -> & _). discriminate.
Qed.
Print Assumptions C23_decides_partial.
Example C23_example : api_syntax nix0 tkix expr /\ makes env0 expr P_expr [] /\ error_free expr /\ productive (gram expr) /\ total_on tkix expr w_bad /\
  returns tkix P_expr w_bad RNotFound.
Proof. split; [apply expr_api|]. split; [apply expr_makes|]. split; [apply expr_free|]. split; [apply expr_productive|]. split; [apply expr_total|]. exists 100. vm_compute. reflexivity. Qed.
(** productivity cannot be dropped *)
Theorem C23_decides_refuted : exists (s : stx) P w, api_syntax nix0 tkix s /\ makes env0 s P [] /\ error_free s /\ total_on tkix s w /\
  diverges tkix P w.
Proof.
  exists g_unprod, P_unprod, [(0, 0)]. split; [raw|]. split; [mk|]. split; [errfree|]. split; [|apply unprod_diverges].
  exists (fun _ _ => True). intros r args Hr _ _. simpl in Hr. repeat destruct Hr as [<-|Hr]; try destruct Hr; eexists; split; solve [reflexivity|exact I].
Qed.
Print Assumptions C23_decides_refuted.
