(** * Properties C91, C92: growing a grammar by a construct with its own keyword; parts of a grammar *)
From Coq Require Import List Arith Lia Bool Permutation ZArith.
From Verif Require Import Lib Grammar LrModel LrSpec LrSets LrNew LrTop ParseModel Trees ParseSpec GramFacts ParseInv ParseComplete ParseTop ParseMore ParseExamples PropParse PropLr PropRecover LoopSpec OrderSpec PropOrder MachSpec MachProofs PropMach RuleMap ProdCheck NumSpec PropNum StmtSpec PropStmt OpSpec OpProofs OpTop PropOp ValueProofs ListSpec NestSpec NestProofs NestCyc PropNest GrowSpec GrowProofs GrowSim.
Import ListNotations.

Section Facts.
  Context {N T E : Type}.
  Lemma reach_der (s : syntax N T E) D : productive (gram s) -> start_defined s -> reachable (gram s) (sx_start s) D -> exists w, der (gram s) (NT D) w.
  Proof.
    intros Hp (r & Hr & Er) (l1 & l2 & HR). destruct (reach_cases (gram s) _ _ HR D) as [[E1|[]]|(r' & Hr' & HD)]; [rewrite in_app_iff; cbn; auto| |eapply Hp; eauto].
    injection E1 as <-. destruct (ders_all (gram s) (r_rhs r)) as [w Hw]; [intros X HX; eapply Hp; eauto|]. exists w. rewrite <- Er. constructor; auto.
  Qed.
  Lemma begin_firstl rs A t : can_begin_with rs A t -> firstl rs [NT A] t.
  Proof. intros [w Hw]. apply firsts_firstl. apply (proj1 (der_rewr rs)) in Hw. exists (map TM w). exact Hw. Qed.
  Lemma start_nts (s : syntax N T E) : start_defined s -> In (sx_start s) (nonterminals (gram s)).
  Proof. intros (r & Hr & Er). apply nonterminals_spec. exists r. auto. Qed.
  Lemma dl_in rs st key l : delimited rs st key l -> forall X, In X l -> (exists t, X = TM t) \/ exists D, X = NT D /\ reachable rs st D.
  Proof.
    induction 1 as [|t l Ht Hl IH|D e l HR Hc He Hf Hl IH]; intros X [].
    - left. eauto.
    - auto.
    - right. eauto.
    - destruct H as [<-|HX]; eauto.
  Qed.
  Lemma gram_perm (s s' : syntax N T E) A key body : grown s A key body s' -> forall r, In r (gram s') <-> r = key_rule A key body \/ In r (gram s).
  Proof.
    intros (_ & c & Ec & Hp) r. unfold gram. rewrite !in_map_iff. split.
    - intros (x & <- & Hx). eapply Permutation_in in Hx; [|exact Hp]. destruct Hx as [<-|Hx]; eauto.
    - intros [->|(x & <- & Hx)]; [exists c|exists x]; (split; [auto|]); (eapply Permutation_in; [apply Permutation_sym; exact Hp|cbn; auto]).
  Qed.
  Lemma grown_start (s s' : syntax N T E) A key body : grown s A key body s' -> start_defined s -> start_defined s'.
  Proof. intros Hg (r & Hr & Er). exists r. split; [apply (gram_perm _ _ _ _ _ Hg); auto|]. destruct Hg as [-> _]. auto. Qed.
  Lemma grown_productive (s s' : syntax N T E) A key body : grown s A key body s' -> start_defined s -> productive (gram s) -> delimited (gram s) (sx_start s) key body -> productive (gram s').
  Proof.
    intros Hg Hs Hp Hd r X Hr HX. assert (Hi : incl (gram s) (gram s')) by (intros x Hx; apply (gram_perm _ _ _ _ _ Hg); auto).
    assert (HD : exists w, der (gram s) X w).
    { apply (gram_perm _ _ _ _ _ Hg) in Hr as [->|Hr]; [|eapply Hp; eauto]. cbn in HX. destruct HX as [<-|HX]; [eexists; constructor|].
      destruct (dl_in _ _ _ _ Hd _ HX) as [[t ->]|(D & -> & HR)]; [eexists; constructor|]. eapply reach_der; eauto. }
    destruct HD as [w Hw]. exists w. apply (der_incl (gram s) (gram s')); auto.
  Qed.
  Lemma api_perm (nix : N -> nat) (tix : T -> nat) (l l' : list (crule N T E)) st st' : Permutation l l' -> api_syntax nix tix (mk_syntax l st) -> api_syntax nix tix (mk_syntax l' st').
  Proof. unfold api_syntax. cbn. rewrite !Forall_forall. intros Hp Ha c Hc. apply Ha. eapply Permutation_in; [apply Permutation_sym; exact Hp|exact Hc]. Qed.
End Facts.

(** ** C92: each nonterminal that a grammar uses can be parsed on its own *)
Theorem C92_part : forall N T E (nix : N -> nat) (tix : T -> nat) e e' (s : syntax N T E) P D,
  api_syntax nix tix s -> makes e s P [] -> productive (gram s) -> start_defined s -> reachable (gram s) (sx_start s) D -> lr_env_ok e' ->
  exists P', makes e' (mk_syntax (sx_rules s) D) P' [].
Proof.
  intros N T E nix tix e e' s P D Ha Hmk Hp Hs HR He. set (s' := mk_syntax (sx_rules s) D). change (gram s) with (gram s') in Hp. assert (Ha' : api_syntax nix tix s') by exact Ha.
  assert (Hs' : start_defined s'). { destruct (reach_der s D Hp Hs HR) as [w Hw]. inversion Hw; subst. exists r. auto. }
  destruct (made_at nix tix e' s' Ha' He Hs' Hp) as (P' & ws' & Hmk'). destruct (makes_made nix tix e s P [] Ha Hmk) as [ss Hm]. destruct (makes_made nix tix e' s' P' ws' Ha' Hmk') as [z Hm'].
  replace (@nil warning) with ws'; [exists P'; auto|]. apply (md_free _ _ _ _ Hm').
  apply (part_free (gram s) (sx_start s) ss D z (md_fresh _ _ _ _ Hm) (md_fresh _ _ _ _ Hm') (md_eoi _ _ _ _ Hm) Hp HR). apply (md_free _ _ _ _ Hm). auto.
Qed.
Print Assumptions C92_part.

(** without error rules, its parser accepts exactly what that nonterminal derives *)
Theorem C92_decides : forall N T E (nix : N -> nat) (tix : T -> nat) e (s : syntax N T E) P' D w,
  api_syntax nix tix s -> productive (gram s) -> error_free s -> makes e (mk_syntax (sx_rules s) D) P' [] -> total_on tix s w ->
  (der (gram s) (NT D) (kinds tix w) /\ exists v, returns tix P' w (ROk v)) \/ (~ der (gram s) (NT D) (kinds tix w) /\ returns tix P' w RNotFound).
Proof. intros N T E nix tix e s P' D w Ha Hp Hf Hmk Ht. apply (C23_decides_partial N T E nix tix e (mk_syntax (sx_rules s) D) P' w Ha Hmk Hf Hp Ht). Qed.
Print Assumptions C92_decides.

(** ** C91: a construct with its own keyword *)
Theorem C91_grown : forall N T E (nix : N -> nat) (tix : T -> nat) e e' (s s' : syntax N T E) P A key body t,
  api_syntax nix tix s -> makes e s P [] -> productive (gram s) -> start_defined s ->
  can_begin_with (gram s) A t -> ~ has_terminal (gram s) (TSym key) -> delimited (gram s) (sx_start s) key body ->
  grown s A key body s' -> api_syntax nix tix s' -> lr_env_ok e' ->
  exists P', makes e' s' P' [].
Proof.
  intros N T E nix tix e e' s s' P A key body t Ha Hmk Hp Hs Hb Hk Hd Hg Ha' He.
  destruct (made_at nix tix e' s' Ha' He (grown_start _ _ _ _ _ Hg Hs) (grown_productive _ _ _ _ _ Hg Hs Hp Hd)) as (P' & ws & Hmk').
  pose proof Hg as (Es & c & Ec & Hperm). set (s0 := mk_syntax (sx_rules s ++ [c]) (sx_start s)).
  assert (Hp0 : Permutation (sx_rules s') (sx_rules s0)) by (eapply Permutation_trans; [exact Hperm|apply Permutation_cons_append]).
  assert (Ha0 : api_syntax nix tix s0) by (apply (api_perm nix tix (sx_rules s') (sx_rules s0) (sx_start s') (sx_start s0) Hp0); exact Ha').
  assert (Hg0 : grown s A key body s0) by (split; auto; exists c; split; auto; apply Permutation_sym, Permutation_cons_append).
  destruct (made_at nix tix e' s0 Ha0 He (grown_start _ _ _ _ _ Hg0 Hs) (grown_productive _ _ _ _ _ Hg0 Hs Hp Hd)) as (P0 & ws0 & Hmk0).
  destruct (makes_made nix tix e s P [] Ha Hmk) as [z Hm]. destruct (makes_made nix tix e' s0 P0 ws0 Ha0 Hmk0) as [ss Hm0].
  assert (Eg : gram s0 = gram s ++ [key_rule A key body]) by (unfold gram, s0; cbn; rewrite map_app; cbn; rewrite Ec; auto).
  assert (Hws0 : ws0 = []).
  { apply (md_free _ _ _ _ Hm0). pose proof (md_fresh _ _ _ _ Hm0) as Hf. rewrite Eg in Hf |- *. change (sx_start s0) with (sx_start s).
    apply (grow_free (gram s) (sx_start s) A key body t ss z (md_eoi _ _ _ _ Hm) (start_nts s Hs) (begin_firstl _ _ _ Hb) Hk Hd Hf (md_fresh _ _ _ _ Hm) Hp).
    intros D HR. apply (part_free (gram s) (sx_start s) z D z (md_fresh _ _ _ _ Hm) (md_fresh _ _ _ _ Hm) (md_eoi _ _ _ _ Hm) Hp HR). apply (md_free _ _ _ _ Hm). auto. }
  subst ws0. assert (Hord : same_rules_any_order s0 s').
  { split; [cbn; auto|]. exists (sx_rules s'), [], []. rewrite app_nil_r. split; [apply Permutation_sym; auto|]. split; [apply Permutation_refl|]. split; constructor. }
  destruct (C65_rule_order N T E nix tix e' e' s0 s' P0 P' ws Ha0 Ha' Hord Hmk0 Hmk') as [-> _]. exists P'. exact Hmk'.
Qed.
Print Assumptions C91_grown.

(** On inputs without the new keyword the new parser does what the old one does: the same result, the same tokens left in the
    iterator, the same panics.  With warnings this holds if the new rule comes last. *)
Definition same_on {N T E} (tix : T -> nat) (P P' : parser N T E) (w : list T) : Prop :=
  (forall o rest, (exists fuel, parse_full tix P fuel w = Ok (o, rest)) <-> (exists fuel, parse_full tix P' fuel w = Ok (o, rest))) /\
  (panics tix P w <-> panics tix P' w) /\ (diverges tix P w <-> diverges tix P' w).
Theorem C91_old_inputs_last : forall N T E (nix : N -> nat) (tix : T -> nat) e e' (s s' : syntax N T E) P P' ws ws' c A key body t w,
  api_syntax nix tix s -> api_syntax nix tix s' -> makes e s P ws -> makes e' s' P' ws' -> productive (gram s) -> start_defined s ->
  can_begin_with (gram s) A t -> ~ has_terminal (gram s) (TSym key) -> delimited (gram s) (sx_start s) key body ->
  sx_start s' = sx_start s -> cr_rule c = key_rule A key body -> sx_rules s' = sx_rules s ++ [c] ->
  (forall x, In x w -> tix x <> key) ->
  same_on tix P P' w.
Proof.
  intros N T E nix tix e e' s s' P P' ws ws' c A key body t w Ha Ha' Hmk Hmk' Hp Hs Hb Hk Hd Es Ec Er Hw.
  destruct (makes_made nix tix e s P ws Ha Hmk) as [z D]. destruct (makes_made nix tix e' s' P' ws' Ha' Hmk') as [ss D'].
  destruct (mach_ok tix s P ws z w D) as [A1 A2]. destruct (mach_ok tix s' P' ws' ss w D') as [B1 B2]. rewrite Es in B1, B2.
  assert (Eg : gram s' = gram s ++ [key_rule A key body]) by (unfold gram; rewrite Er, map_app; cbn; rewrite Ec; auto).
  assert (Egs : gens s' = gens s ++ [cr_gen c]) by (unfold gens; rewrite Er, map_app; auto).
  assert (Hlen : length (gens s) = length (gram s)) by (unfold gens, gram; rewrite !map_length; auto).
  pose proof (md_fresh _ _ _ _ D') as Hf. rewrite Eg in Hf, B1, B2. rewrite Egs in B1, B2.
  destruct (sim_run (gram s) (sx_start s) A key body t ss z (md_eoi _ _ _ _ D) (start_nts s Hs) (begin_firstl _ _ _ Hb) Hk Hd Hp Hf (md_fresh _ _ _ _ D) tix (gens s) (cr_gen c) w Hlen Hw) as [S1 S2].
  split; [|split].
  - intros o rest. rewrite (A1 (Ok (o, rest))) by discriminate. rewrite (B1 (Ok (o, rest))) by discriminate. apply S1.
  - rewrite !panics_full. rewrite (A1 Panic), (B1 Panic) by discriminate. apply S1.
  - rewrite !diverges_full. rewrite A2, B2. apply S2.
Qed.
Print Assumptions C91_old_inputs_last.
Theorem C91_old_inputs : forall N T E (nix : N -> nat) (tix : T -> nat) e e' (s s' : syntax N T E) P P' ws' A key body t w,
  api_syntax nix tix s -> api_syntax nix tix s' -> makes e s P [] -> makes e' s' P' ws' -> productive (gram s) -> start_defined s ->
  can_begin_with (gram s) A t -> ~ has_terminal (gram s) (TSym key) -> delimited (gram s) (sx_start s) key body ->
  grown s A key body s' -> (forall x, In x w -> tix x <> key) ->
  same_on tix P P' w.
Proof.
  intros N T E nix tix e e' s s' P P' ws' A key body t w Ha Ha' Hmk Hmk' Hp Hs Hb Hk Hd Hg Hw.
  assert (He : lr_env_ok e') by (destruct Hmk' as [He _]; exact He).
  pose proof Hg as (Es & c & Ec & Hperm). set (s0 := mk_syntax (sx_rules s ++ [c]) (sx_start s)).
  assert (Hp0 : Permutation (sx_rules s') (sx_rules s0)) by (eapply Permutation_trans; [exact Hperm|apply Permutation_cons_append]).
  assert (Ha0 : api_syntax nix tix s0) by (apply (api_perm nix tix (sx_rules s') (sx_rules s0) (sx_start s') (sx_start s0) Hp0); exact Ha').
  assert (Hg0 : grown s A key body s0) by (split; auto; exists c; split; auto; apply Permutation_sym, Permutation_cons_append).
  destruct (C91_grown N T E nix tix e e' s s0 P A key body t Ha Hmk Hp Hs Hb Hk Hd Hg0 Ha0 He) as (P0 & Hmk0).
  assert (Hord : same_rules_any_order s0 s').
  { split; [cbn; auto|]. exists (sx_rules s'), [], []. rewrite app_nil_r. split; [apply Permutation_sym; auto|]. split; [apply Permutation_refl|]. split; constructor. }
  destruct (C65_rule_order N T E nix tix e' e' s0 s' P0 P' ws' Ha0 Ha' Hord Hmk0 Hmk') as [_ Hsame].
  destruct (C91_old_inputs_last N T E nix tix e e' s s0 P P0 [] [] c A key body t w Ha Ha0 Hmk Hmk0 Hp Hs Hb Hk Hd eq_refl Ec eq_refl Hw) as (S1 & S2 & S3). destruct (Hsame w) as (Q1 & Q2 & Q3).
  split; [|split]; [intros o rest; rewrite S1; apply Q1|tauto|tauto].
Qed.
Print Assumptions C91_old_inputs.

(** several constructs *)
Theorem C91_several : forall N T E (nix : N -> nat) (tix : T -> nat) e e' (s s' : syntax N T E) P keys,
  api_syntax nix tix s -> makes e s P [] -> productive (gram s) -> start_defined s -> grown_by s keys s' -> api_syntax nix tix s' -> lr_env_ok e' ->
  (exists P', makes e' s' P' []) /\
  forall P' ws' w, makes e' s' P' ws' -> (forall x, In x w -> ~ In (tix x) keys) -> same_on tix P P' w.
Proof.
  intros N T E nix tix e e' s s' P keys Ha Hmk Hp Hs Hg Ha' He'.
  assert (Hall : productive (gram s') /\ start_defined s' /\ forall e', lr_env_ok e' -> (exists P', makes e' s' P' []) /\
    forall P' ws' w, makes e' s' P' ws' -> (forall x, In x w -> ~ In (tix x) keys) -> same_on tix P P' w); [|destruct Hall as (_ & _ & H); apply H; auto].
  clear e' He'. revert Ha'. induction Hg as [|keys s1 A t key body s' Hg IH Hb Hk Hd Hgr]; intros Ha'.
  - split; auto. split; auto. intros e' He'.
    assert (Hord : same_rules_any_order s s) by (split; auto; exists (sx_rules s), [], []; rewrite app_nil_r; split; [apply Permutation_refl|split; [apply Permutation_refl|split; constructor]]).
    split.
    + destruct (made_at nix tix e' s Ha He' Hs Hp) as (P' & ws' & Hmk'). destruct (C65_rule_order N T E nix tix e e' s s P P' ws' Ha Ha' Hord Hmk Hmk') as [-> _]. eauto.
    + intros P' ws' w Hmk' _. destruct (C65_rule_order N T E nix tix e e' s s P P' ws' Ha Ha' Hord Hmk Hmk') as [_ Hsame]. destruct (Hsame w) as (Q1 & Q2 & Q3). split; auto.
  - assert (Ha1 : api_syntax nix tix s1).
    { destruct Hgr as (_ & c & _ & Hperm). unfold api_syntax in *. rewrite Forall_forall in *. intros c0 Hc0. apply Ha'. eapply Permutation_in; [apply Permutation_sym; exact Hperm|right; auto]. }
    destruct (IH Ha1) as (Hp1 & Hs1 & H1). split; [eapply grown_productive; eauto|]. split; [eapply grown_start; eauto|]. intros e' He'. destruct (H1 e' He') as [[P1 Hmk1] Hold]. split.
    + apply (C91_grown N T E nix tix e' e' s1 s' P1 A key body t); auto.
    + intros P' ws' w Hmk' Hw. destruct (Hold P1 [] w Hmk1) as (Q1 & Q2 & Q3); [intros x Hx Hi; apply (Hw x Hx); right; auto|].
      destruct (C91_old_inputs N T E nix tix e' e' s1 s' P1 P' ws' A key body t w) as (R1 & R2 & R3); auto; [intros x Hx Ex; apply (Hw x Hx); left; auto|].
      split; [|split]; [intros o rest; rewrite Q1; apply R1|tauto|tauto].
Qed.
Print Assumptions C91_several.

(** ** Example: the operator table [calc] grown by "if E then E else E end" among the operands, with tokens 10, 11, 12 and 13 *)
Definition cond : reducer Z tok nat := fun args => match args with
  | [Terminal _; NonTerminal c; Terminal _; NonTerminal a; Terminal _; NonTerminal b; Terminal _] => GOk (if Z.eqb c 0 then b else a)%Z | _ => GPanic end.
Definition if_body : list sym := [NT 0; TM (TSym 11); NT 0; TM (TSym 12); NT 0; TM (TSym 13)].
Definition if_rule : crule Z tok nat := rule_new_raw 5 [Terminal 10; NonTerminal 0; Terminal 11; NonTerminal 0; Terminal 12; NonTerminal 0; Terminal 13] cond.
Definition if_calc : syntax Z tok nat := mk_syntax (if_rule :: sx_rules (table_syntax calc)) 0.
Definition P_if : parser Z tok nat := Eval vm_compute in made_parser (lr1_new env0 3000 if_calc).
Lemma calc_no k : 10 <= k -> ~ has_terminal (gram (table_syntax calc)) (TSym k).
Proof.
  intros Hk (r & Hr & Hi). vm_compute in Hr. repeat destruct Hr as [<-|Hr]; try contradiction; cbn in Hi; repeat destruct Hi as [E|Hi]; try contradiction; try discriminate; injection E as <-; lia.
Qed.
Lemma if_delimited : delimited (gram (table_syntax calc)) 0 10 if_body.
Proof.
  assert (HR : reachable (gram (table_syntax calc)) 0 0) by apply reach_start. pose proof (op_not_cyclic calc) as HC. change (sx_start (table_syntax calc)) with 0 in HC.
  unfold if_body. repeat (apply dl_part; [exact HR|exact HC|discriminate|apply calc_no; lia|]). constructor.
Qed.
(** 2 * if 1 - 1 then 3 else 4 end + 5 *)
Definition w_if : list tok := [num 2; sign 3; sign 10; num 1; sign 2; num 1; sign 11; num 3; sign 12; num 4; sign 13; sign 1; num 5].
Example C91_example : api_syntax no_z fst (table_syntax calc) /\ makes env0 (table_syntax calc) P_calc [] /\ productive (gram (table_syntax calc)) /\ start_defined (table_syntax calc) /\
  can_begin_with (gram (table_syntax calc)) 5 (TSym 0) /\ ~ has_terminal (gram (table_syntax calc)) (TSym 10) /\ delimited (gram (table_syntax calc)) (sx_start (table_syntax calc)) 10 if_body /\
  grown (table_syntax calc) 5 10 if_body if_calc /\ api_syntax no_z fst if_calc /\ lr_env_ok env0 /\ makes env0 if_calc P_if [] /\
  returns fst P_if w_if (ROk (2 * 4 + 5)%Z) /\ returns fst P_calc w_if RNotFound /\
  (forall x, In x w_calc -> fst x <> 10) /\ exists v, returns fst P_calc w_calc (ROk v) /\ returns fst P_if w_calc (ROk v).
Proof.
  split; [apply op_api|]. split; [mk1|]. split; [apply op_productive, calc_proper|]. split; [apply calc_defined|].
  split; [exists []; apply (der_rule (gram (table_syntax calc)) (mk_rule 5 [TM (TSym 0)])); [vm_compute; tauto|apply ders_one; constructor]|].
  split; [apply calc_no; lia|]. split; [apply if_delimited|]. split; [split; [reflexivity|]; exists if_rule; split; [reflexivity|apply Permutation_refl]|].
  split; [raw_rules|]. split; [apply env0_ok|]. split; [mk1|]. split; [exists 1000; vm_compute; reflexivity|]. split; [exists 1000; vm_compute; reflexivity|].
  split; [intros x Hx; vm_compute in Hx; repeat destruct Hx as [<-|Hx]; try contradiction; cbn; lia|]. eexists. split; exists 1000; vm_compute; reflexivity.
Qed.
(** the multiplications of [calc], nonterminal 1, have a parser of their own *)
Definition P_mul : parser Z tok nat := Eval vm_compute in made_parser (lr1_new env0 3000 (mk_syntax (sx_rules (table_syntax calc)) 1)).
Example C92_example : api_syntax no_z fst (table_syntax calc) /\ makes env0 (table_syntax calc) P_calc [] /\ productive (gram (table_syntax calc)) /\ start_defined (table_syntax calc) /\ error_free (table_syntax calc) /\
  reachable (gram (table_syntax calc)) (sx_start (table_syntax calc)) 1 /\ lr_env_ok env0 /\ makes env0 (mk_syntax (sx_rules (table_syntax calc)) 1) P_mul [] /\
  returns fst P_mul [num 2; sign 3; num 4] (ROk 8%Z) /\ returns fst P_mul [num 2; sign 1; num 4] RNotFound.
Proof.
  split; [apply op_api|]. split; [mk1|]. split; [apply op_productive, calc_proper|]. split; [apply calc_defined|]. split; [apply op_error_free|].
  split; [exists [], []; apply (rewr_step (gram (table_syntax calc)) [] (mk_rule 0 [NT 1]) []); [vm_compute; tauto|constructor]|]. split; [apply env0_ok|].
  split; [mk1|]. split; exists 1000; vm_compute; reflexivity.
Qed.

(** ** The conditions are needed *)
(** [delimited] without some of its conditions: [rc] reachable, [cy] cannot be rewritten to itself, [fe] the next token is new,
    [fo] there is a next token *)
Inductive delimited_but (rc cy fe fo : bool) (rs : list rule) (start key : nat) : list sym -> Prop :=
| db_nil : delimited_but rc cy fe fo rs start key []
| db_token t l : t <> TSym key -> delimited_but rc cy fe fo rs start key l -> delimited_but rc cy fe fo rs start key (TM t :: l)
| db_part D e l : (rc = false -> reachable rs start D) -> (cy = false -> ~ cyclic rs D) -> e <> key -> (fe = false -> ~ has_terminal rs (TSym e)) ->
    delimited_but rc cy fe fo rs start key l -> delimited_but rc cy fe fo rs start key (NT D :: TM (TSym e) :: l)
| db_open D l : fo = true -> (rc = false -> reachable rs start D) -> (cy = false -> ~ cyclic rs D) -> delimited_but rc cy fe fo rs start key l -> delimited_but rc cy fe fo rs start key (NT D :: l).
Definition grow_but (bg ky rc cy fe fo : bool) : Prop :=
  exists (s s' : syntax nat nat nat) (P P' : parser nat nat nat) A key body ws,
    api_syntax self self s /\ makes env0 s P [] /\ productive (gram s) /\ start_defined s /\
    (bg = false -> exists t, can_begin_with (gram s) A t) /\ (ky = false -> ~ has_terminal (gram s) (TSym key)) /\
    delimited_but rc cy fe fo (gram s) (sx_start s) key body /\
    grown s A key body s' /\ api_syntax self self s' /\ makes env0 s' P' ws /\ ws <> ([] : list warning).
Theorem C91_but : forall rs start key l, delimited_but false false false false rs start key l <-> delimited rs start key l.
Proof. intros rs start key l. split; induction 1; try (constructor; auto; fail). discriminate. Qed.
Print Assumptions C91_but.
Ltac no_term := intros (r & Hr & Hi); vm_compute in Hr; repeat destruct Hr as [<-|Hr]; try contradiction; cbn in Hi; repeat destruct Hi as [E|Hi]; try contradiction; discriminate.
Ltac grow_end c := split; [split; [reflexivity|exists c; split; [reflexivity|apply Permutation_refl]]|]; split; [raw_rules|]; split; [mk1|discriminate].
Ltac begin_tac r := intros _; eexists; exists []; apply (der_rule _ r); [vm_compute; tauto|apply ders_one; constructor].

(** the nonterminal derives nothing but the empty string: S ::= B A x | C A y, B ::= b, C ::= b, A ::= (nothing), with A ::= k *)
Theorem C91_begin_needed : grow_but true false false false false false.
Proof.
  exists (nst [nrule 0 [NonTerminal 1; NonTerminal 3; Terminal 1]; nrule 0 [NonTerminal 2; NonTerminal 3; Terminal 2]; nrule 1 [Terminal 3]; nrule 2 [Terminal 3]; nrule 3 []] 0),
    (nst [nrule 3 [Terminal 9]; nrule 0 [NonTerminal 1; NonTerminal 3; Terminal 1]; nrule 0 [NonTerminal 2; NonTerminal 3; Terminal 2]; nrule 1 [Terminal 3]; nrule 2 [Terminal 3]; nrule 3 []] 0).
  eexists _, _, 3, 9, [], _. base_tac. split; [discriminate|]. split; [intros _; no_term|]. split; [constructor|]. grow_end (nrule 3 [Terminal 9]).
Qed.
Print Assumptions C91_begin_needed.
(** the keyword is not new: S ::= k, with S ::= k *)
Theorem C91_key_needed : grow_but false true false false false false.
Proof.
  exists (nst [nrule 0 [Terminal 9]] 0), (nst [nrule 0 [Terminal 9]; nrule 0 [Terminal 9]] 0). eexists _, _, 0, 9, [], _. base_tac. split; [begin_tac (mk_rule 0 [TM (TSym 9)])|]. split; [discriminate|]. split; [constructor|]. grow_end (nrule 0 [Terminal 9]).
Qed.
Print Assumptions C91_key_needed.
(** a nonterminal that the grammar does not use: S ::= a, X ::= b, X ::= b, with S ::= k X e *)
Theorem C91_reachable_needed : grow_but false false true false false false.
Proof.
  exists (nst [nrule 0 [Terminal 1]; nrule 1 [Terminal 2]; nrule 1 [Terminal 2]] 0), (nst [nrule 0 [Terminal 9; NonTerminal 1; Terminal 8]; nrule 0 [Terminal 1]; nrule 1 [Terminal 2]; nrule 1 [Terminal 2]] 0). eexists _, _, 0, 9, [NT 1; TM (TSym 8)], _.
  base_tac. split; [begin_tac (mk_rule 0 [TM (TSym 1)])|]. split; [intros _; no_term|].
  split; [apply db_part; [discriminate|intros _; not_cyclic (fun _ : nat => 0)|discriminate|intros _; no_term|constructor]|]. grow_end (nrule 0 [Terminal 9; NonTerminal 1; Terminal 8]).
Qed.
Print Assumptions C91_reachable_needed.
(** a nonterminal that can be rewritten to itself: S ::= S | a, with S ::= k S e *)
Theorem C91_cyclic_needed : grow_but false false false true false false.
Proof.
  exists (nst [nrule 0 [NonTerminal 0]; nrule 0 [Terminal 1]] 0), (nst [nrule 0 [Terminal 9; NonTerminal 0; Terminal 8]; nrule 0 [NonTerminal 0]; nrule 0 [Terminal 1]] 0). eexists _, _, 0, 9, [NT 0; TM (TSym 8)], _.
  base_tac. split; [begin_tac (mk_rule 0 [TM (TSym 1)])|]. split; [intros _; no_term|].
  split; [apply db_part; [intros _; apply reach_start|discriminate|discriminate|intros _; no_term|constructor]|]. grow_end (nrule 0 [Terminal 9; NonTerminal 0; Terminal 8]).
Qed.
Print Assumptions C91_cyclic_needed.
(** the next token is not new: S ::= b | b c, with S ::= k S c *)
Theorem C91_next_needed : grow_but false false false false true false.
Proof.
  exists (nst [nrule 0 [Terminal 1]; nrule 0 [Terminal 1; Terminal 2]] 0), (nst [nrule 0 [Terminal 9; NonTerminal 0; Terminal 2]; nrule 0 [Terminal 1]; nrule 0 [Terminal 1; Terminal 2]] 0). eexists _, _, 0, 9, [NT 0; TM (TSym 2)], _.
  base_tac. split; [begin_tac (mk_rule 0 [TM (TSym 1)])|]. split; [intros _; no_term|].
  split; [apply db_part; [intros _; apply reach_start|intros _; not_cyclic (fun _ : nat => 0)|discriminate|discriminate|constructor]|]. grow_end (nrule 0 [Terminal 9; NonTerminal 0; Terminal 2]).
Qed.
Print Assumptions C91_next_needed.
(** the construct ends with a nonterminal: S ::= S + a | a, with S ::= k S *)
Theorem C91_closed_needed : grow_but false false false false false true.
Proof.
  exists (nst [nrule 0 [NonTerminal 0; Terminal 2; Terminal 1]; nrule 0 [Terminal 1]] 0), (nst [nrule 0 [Terminal 9; NonTerminal 0]; nrule 0 [NonTerminal 0; Terminal 2; Terminal 1]; nrule 0 [Terminal 1]] 0). eexists _, _, 0, 9, [NT 0], _.
  base_tac. split; [begin_tac (mk_rule 0 [TM (TSym 1)])|]. split; [intros _; no_term|].
  split; [apply db_open; [reflexivity|intros _; apply reach_start|intros _; not_cyclic (fun _ : nat => 0)|constructor]|]. grow_end (nrule 0 [Terminal 9; NonTerminal 0]).
Qed.
Print Assumptions C91_closed_needed.

(** a nonterminal that the grammar does not use may be ambiguous: S ::= a, X ::= b, X ::= b *)
Theorem C92_reachable_needed : exists (s : syntax nat nat nat) (P P' : parser nat nat nat) D ws,
  api_syntax self self s /\ makes env0 s P [] /\ productive (gram s) /\ start_defined s /\ (exists w, der (gram s) (NT D) w) /\
  makes env0 (mk_syntax (sx_rules s) D) P' ws /\ ws <> ([] : list warning).
Proof.
  exists (nst [nrule 0 [Terminal 1]; nrule 1 [Terminal 2]; nrule 1 [Terminal 2]] 0). eexists _, _, 1, _. base_tac.
  split; [eexists; apply (der_rule _ (mk_rule 1 [TM (TSym 2)])); [vm_compute; tauto|apply ders_one; constructor]|]. split; [mk1|discriminate].
Qed.
Print Assumptions C92_reachable_needed.

(** then a constant 14 among the operands, of value 42 *)
Definition const_rule : crule Z tok nat := rule_new_raw 5 [Terminal 14] (fun _ => GOk 42%Z).
Definition const_calc : syntax Z tok nat := mk_syntax (const_rule :: sx_rules if_calc) 0.
Definition P_const : parser Z tok nat := Eval vm_compute in made_parser (lr1_new env0 3000 const_calc).
Example C91_several_example : grown_by (table_syntax calc) [14; 10] const_calc /\ api_syntax no_z fst const_calc /\ makes env0 const_calc P_const [] /\
  returns fst P_const [sign 10; num 1; sign 11; sign 14; sign 12; num 4; sign 13; sign 1; num 5] (ROk 47%Z) /\ exists v, returns fst P_const w_calc (ROk v).
Proof.
  destruct C91_example as (_ & _ & _ & _ & Hb & Hk & Hd & Hg & _).
  split; [|split; [raw_rules|split; [mk1|split; [|eexists]; exists 1000; vm_compute; reflexivity]]].
  eapply gb_more with (s1 := if_calc) (A := 5) (t := TSym 0) (body := []); [eapply gb_more; [apply gb_nil|exact Hb|exact Hk|exact Hd|exact Hg]|..].
  - exists []. apply (der_rule (gram if_calc) (mk_rule 5 [TM (TSym 0)])); [vm_compute; tauto|apply ders_one; constructor].
  - no_term.
  - constructor.
  - split; [reflexivity|]. exists const_rule. split; [reflexivity|apply Permutation_refl].
Qed.
