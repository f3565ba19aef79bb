(** * Property C78: grammars inside grammars; C76: the parser for a statement list can be made *)
From Coq Require Import List Arith Lia Bool Permutation ZArith.
From Verif Require Import Lib Grammar LrModel LrSpec LrSets LrNew LrTop ParseModel Trees ParseSpec GramFacts ParseInv ParseComplete ParseTop ParseMore ParseExamples PropParse PropLr LoopSpec OrderSpec PropOrder PropRecover ProdCheck NumSpec PropNum StmtSpec PropStmt OpSpec OpProofs OpTop PropOp ValueProofs ListSpec NestSpec NestProofs NestCyc OuterGrams.
Import ListNotations.

Lemma made_at {N T E} (nix : N -> nat) (tix : T -> nat) e (s : syntax N T E) : api_syntax nix tix s -> lr_env_ok e -> start_defined s -> productive (gram s) ->
  exists P ws, makes e s P ws.
Proof.
  intros Ha He Hs Hp. apply (C27_no_panic_when_defined N T E nix tix e s He Ha Hs). intros r A Hr HA. destruct (Hp r (NT A) Hr HA) as [w Hw]. inversion Hw; subst. eauto.
Qed.
Lemma fresh_exists rs : exists ss, ~ In ss (nonterminals rs).
Proof. destruct (start_symbol_ok rs) as (ss & _ & H & _). eauto. Qed.
Lemma perm_gram {N T E} (s : syntax N T E) H : Permutation (gram s) H -> exists s0 : syntax N T E, sx_start s0 = sx_start s /\ gram s0 = H /\ Permutation (sx_rules s) (sx_rules s0).
Proof.
  intros Hp. unfold gram in Hp. apply Permutation_sym in Hp. apply Permutation_map_inv in Hp as (l & -> & Hl). exists (mk_syntax l (sx_start s)). auto.
Qed.

Section Nested.
  Context {N1 T1 E1 N2 T2 E2 N T E : Type} (s1 : syntax N1 T1 E1) (x : nat) (s2 : syntax N2 T2 E2) (s : syntax N T E).
  Hypothesis Hn : nested s1 x s2 s.
  Notation H := (gram s2 ++ map (put_rule x (sx_start s2)) (gram s1)).
  Lemma nest_in r : In r (gram s) <-> In r H.
  Proof. destruct Hn as [_ Hp]. split; apply Permutation_in; [auto|apply Permutation_sym; auto]. Qed.
  Lemma start_nt {A B C} (s0 : syntax A B C) : start_defined s0 -> has_nonterminal (gram s0) (sx_start s0).
  Proof. intros (r & Hr & E0). exists r. auto. Qed.
  Lemma nest_derivable w : disjoint_grammars (gram s1) (gram s2) -> start_defined s1 -> start_defined s2 ->
    (der (gram s) (NT (sx_start s)) w <-> exists w1, der (gram s1) (NT (sx_start s1)) w1 /\ filled (gram s2) x (sx_start s2) w1 w).
  Proof.
    intros Hd H1 H2. destruct (fresh_exists H) as [ss Hss]. destruct Hn as [Es _]. rewrite Es.
    assert (Eq : der (gram s) (NT (sx_start s1)) w <-> der (augment H (sx_start s1) ss) (NT (sx_start s1)) w).
    { rewrite (der_aug H (sx_start s1) ss Hss). split; apply der_incl; intros r Hr; apply nest_in; auto. }
    rewrite Eq. split.
    - intros D. apply (proj1 (der_s1 (gram s1) (gram s2) (sx_start s1) x (sx_start s2) Hd (start_nt _ H1) (start_nt _ H2) ss Hss) _ _ D (NT (sx_start s1)) eq_refl). left. auto.
    - intros (w1 & D & F). apply (proj1 (der_fill (gram s1) (gram s2) (sx_start s1) x (sx_start s2) ss) _ _ D w F).
  Qed.
  Lemma nest_productive : productive (gram s1) -> productive (gram s2) -> start_defined s2 -> productive (gram s).
  Proof.
    intros Hp1 Hp2 (r0 & Hr0 & E0) r Y Hr HY.
    assert (H2 : forall Z w, der (gram s2) Z w -> der (gram s) Z w). { intros Z w. apply der_incl. intros r' Hr'. apply nest_in. apply in_or_app. auto. }
    assert (HX : exists w, der (gram s) (NT (sx_start s2)) w).
    { destruct (ders_all (gram s2) (r_rhs r0)) as [w Hw]; [intros Z HZ; eapply Hp2; eauto|]. exists w. apply H2. rewrite <- E0. constructor; auto. }
    assert (H1 : (forall Z w, der (gram s1) Z w -> exists w', der (gram s) (put_sym x (sx_start s2) Z) w') /\ (forall l w, ders (gram s1) l w -> exists w', ders (gram s) (map (put_sym x (sx_start s2)) l) w')).
    { apply der_ders_ind.
      - intros t. destruct (put_dec x (TM t)) as [Et|Et]; [rewrite Et, put_x; auto|rewrite put_not by auto; eexists; constructor].
      - intros r' w Hr' _ [w' IH]. exists w'. cbn [put_sym]. change (r_lhs r') with (r_lhs (put_rule x (sx_start s2) r')). constructor; auto. apply nest_in. apply in_or_app. right. apply in_map. auto.
      - exists []. constructor.
      - intros Z l u v _ [u' IH1] _ [v' IH2]. exists (u' ++ v'). cbn [map]. constructor; auto. }
    apply nest_in, in_app_or in Hr as [Hr|Hr].
    - destruct (Hp2 r Y Hr HY) as [w Hw]. exists w. auto.
    - apply in_map_iff in Hr as (r1 & <- & Hr1). cbn [put_rule r_rhs] in HY. apply in_map_iff in HY as (Y1 & <- & HY). destruct (Hp1 r1 Y1 Hr1 HY) as [w Hw]. exact (proj1 H1 _ _ Hw).
  Qed.
  Lemma nest_start : start_defined s1 -> start_defined s.
  Proof. intros (r & Hr & E0). exists (put_rule x (sx_start s2) r). split; [apply nest_in; apply in_or_app; right; apply in_map; auto|]. destruct Hn as [-> _]. exact E0. Qed.
End Nested.

(** two grammars without warnings: the nested grammar has no warnings either *)
Theorem C78_nested : forall N1 T1 E1 N2 T2 E2 N T E (nix1 : N1 -> nat) (tix1 : T1 -> nat) (nix2 : N2 -> nat) (tix2 : T2 -> nat) (nix : N -> nat) (tix : T -> nat) e1 e2 e
    (s1 : syntax N1 T1 E1) (s2 : syntax N2 T2 E2) (s : syntax N T E) x P1 P2,
  api_syntax nix1 tix1 s1 -> makes e1 s1 P1 [] -> productive (gram s1) -> start_defined s1 ->
  api_syntax nix2 tix2 s2 -> makes e2 s2 P2 [] -> productive (gram s2) -> start_defined s2 ->
  disjoint_grammars (gram s1) (gram s2) -> never_twice (gram s1) (sx_start s1) x ->
  ~ der (gram s2) (NT (sx_start s2)) [] -> ~ cyclic (gram s2) (sx_start s2) ->
  nested s1 x s2 s -> api_syntax nix tix s -> lr_env_ok e ->
  exists P, makes e s P [].
Proof.
  intros N1 T1 E1 N2 T2 E2 N T E nix1 tix1 nix2 tix2 nix tix e1 e2 e s1 s2 s x P1 P2 Ha1 Hm1 Hp1 Hs1 Ha2 Hm2 Hp2 Hs2 Hd Htw Hnn Hcy Hn Ha He.
  destruct (made_at nix tix e s Ha He (nest_start s1 x s2 s Hn Hs1) (nest_productive s1 x s2 s Hn Hp1 Hp2 Hs2)) as (P & ws & Hmk).
  pose proof Hn as [Es Hp]. destruct (perm_gram s _ Hp) as (s0 & Es0 & Eg0 & Hp0).
  assert (Ha0 : api_syntax nix tix s0) by (unfold api_syntax in *; rewrite Forall_forall in *; intros c Hc; apply Ha; eapply Permutation_in; [apply Permutation_sym; exact Hp0|exact Hc]).
  assert (Hn0 : nested s1 x s2 s0). { split; [congruence|]. rewrite Eg0. apply Permutation_refl. }
  destruct (made_at nix tix e s0 Ha0 He (nest_start s1 x s2 s0 Hn0 Hs1) (nest_productive s1 x s2 s0 Hn0 Hp1 Hp2 Hs2)) as (P0 & ws0 & Hmk0).
  destruct (makes_made nix tix e s0 P0 ws0 Ha0 Hmk0) as [ss Hmd]. destruct (makes_made nix1 tix1 e1 s1 P1 [] Ha1 Hm1) as [ss1 Hmd1]. destruct (makes_made nix2 tix2 e2 s2 P2 [] Ha2 Hm2) as [ss2 Hmd2].
  assert (Hws0 : ws0 = []).
  { apply (md_free _ _ _ _ Hmd). rewrite Es0, Es, Eg0. pose proof (md_fresh _ _ _ _ Hmd) as Hf. rewrite Eg0 in Hf.
    apply (nest_free (gram s1) (gram s2) (sx_start s1) x (sx_start s2) Hd (md_eoi _ _ _ _ Hmd1) (md_eoi _ _ _ _ Hmd2) (start_nt _ Hs1) (start_nt _ Hs2) Hnn Hcy Hp1 Htw ss ss1 ss2 Hf (md_fresh _ _ _ _ Hmd1) (md_fresh _ _ _ _ Hmd2)).
    - apply (md_free _ _ _ _ Hmd1). auto.
    - apply (md_free _ _ _ _ Hmd2). auto. }
  subst ws0. assert (Hord : same_rules_any_order s0 s).
  { split; auto. exists (sx_rules s), [], []. rewrite app_nil_r. split; [apply Permutation_sym; auto|]. split; [apply Permutation_refl|]. split; constructor. }
  destruct (C65_rule_order N T E nix tix e e s0 s P0 P ws Ha0 Ha Hord Hmk0 Hmk) as [-> _]. exists P. exact Hmk.
Qed.
Print Assumptions C78_nested.

(** its language: that of the outer grammar with a word of the inner one for each [x] *)
Theorem C78_language : forall N1 T1 E1 N2 T2 E2 N T E (tix : T -> nat) (s1 : syntax N1 T1 E1) (s2 : syntax N2 T2 E2) (s : syntax N T E) x w,
  start_defined s1 -> start_defined s2 -> disjoint_grammars (gram s1) (gram s2) -> nested s1 x s2 s ->
  (derivable tix s w <-> exists w1, der (gram s1) (NT (sx_start s1)) w1 /\ filled (gram s2) x (sx_start s2) w1 (kinds tix w)).
Proof. intros N1 T1 E1 N2 T2 E2 N T E tix s1 s2 s x w H1 H2 Hd Hn. unfold derivable. apply nest_derivable; auto. Qed.
Print Assumptions C78_language.

(** so without error rules the parser accepts exactly those token sequences *)
Theorem C78_decides : forall N1 T1 E1 N2 T2 E2 N T E (nix : N -> nat) (tix : T -> nat) e (s1 : syntax N1 T1 E1) (s2 : syntax N2 T2 E2) (s : syntax N T E) x P w,
  start_defined s1 -> start_defined s2 -> productive (gram s1) -> productive (gram s2) -> disjoint_grammars (gram s1) (gram s2) ->
  error_free s1 -> error_free s2 -> nested s1 x s2 s -> api_syntax nix tix s -> makes e s P [] -> total_on tix s w ->
  let accepted := exists w1, der (gram s1) (NT (sx_start s1)) w1 /\ filled (gram s2) x (sx_start s2) w1 (kinds tix w) in
  (accepted /\ exists v, returns tix P w (ROk v)) \/ (~ accepted /\ returns tix P w RNotFound).
Proof.
  intros N1 T1 E1 N2 T2 E2 N T E nix tix e s1 s2 s x P w H1 H2 Hp1 Hp2 Hd Hf1 Hf2 Hn Ha Hmk Ht accepted.
  pose proof (C78_language _ _ _ _ _ _ _ _ _ tix s1 s2 s x w H1 H2 Hd Hn) as HL. unfold accepted. rewrite <- HL.
  apply (C23_decides_partial N T E nix tix e s P w Ha Hmk); auto.
  - intros r Hr Hi. apply (nest_in s1 x s2 s Hn), in_app_or in Hr as [Hr|Hr]; [eapply Hf2; eauto|]. apply in_map_iff in Hr as (r1 & <- & Hr1). cbn in Hi. apply in_map_iff in Hi as ([A|[t| |]] & Ey & Hi); cbn in Ey; try discriminate.
    + destruct (Nat.eqb t x); discriminate.
    + eapply Hf1; eauto.
  - exact (nest_productive s1 x s2 s Hn Hp1 Hp2 H2).
Qed.
Print Assumptions C78_decides.

(** ** C76: the parser for a statement list can be made *)
Lemma no_empty_der rs : (forall r, In r rs -> r_rhs r <> []) -> (forall Y w, der rs Y w -> w <> []) /\ (forall l w, ders rs l w -> l <> [] -> w <> []).
Proof.
  intros H. apply der_ders_ind.
  - discriminate.
  - auto.
  - congruence.
  - intros Y l u v _ I1 _ _ _ E0. apply app_eq_nil in E0 as [E0 _]. auto.
Qed.
Lemma api_more {N T E} (nix : N -> nat) (tix : T -> nat) (base more : list (crule N T E)) st st' : api_syntax nix tix (mk_syntax base st) -> api_syntax nix tix (mk_syntax more st') -> api_syntax nix tix (mk_syntax (base ++ more) st').
Proof. unfold api_syntax. simpl. intros H1 H2. apply Forall_app. auto. Qed.

Lemma gram_more {N T E} (base more : list (crule N T E)) st st' : gram (mk_syntax (base ++ more) st') = gram (mk_syntax base st) ++ map cr_rule more.
Proof. apply map_app. Qed.

Theorem C76_made : forall N T E (nix : N -> nat) (tix : T -> nat) e0 e base X R semi (g1 g2 g3 : reducer N T E) P0,
  let items := mk_syntax base X in let s := stmt_list base X R semi g1 g2 g3 in
  api_syntax nix tix items -> makes e0 items P0 [] -> productive (gram items) -> start_defined items -> ~ cyclic (gram items) X ->
  statement_rules base X R semi -> lr_env_ok e ->
  api_syntax nix tix s /\ productive (gram s) /\ exists P, makes e s P [].
Proof.
  intros N T E nix tix e0 e base X R semi g1 g2 g3 P0 items s Ha0 Hm0 Hp Hs Hc [HX Hb] He.
  destruct (fresh_token (gram items) semi) as (x & Hx & Hf).
  assert (Hin : forall r, In r (gram items) -> exists c, In c base /\ cr_rule c = r) by (intros r Hr; apply in_map_iff in Hr as (c & <- & Hc'); eauto).
  assert (Ha : api_syntax nix tix s) by (apply (api_more nix tix base _ X); [exact Ha0|raw_rules]). split; auto.
  assert (Hn : nested (g_stmt R x semi) x items s).
  { split; [reflexivity|]. apply Permutation_refl'. rewrite g_stmt_gram. etransitivity; [exact (gram_more base _ X R)|]. f_equal. unfold put_rule. simpl.
    rewrite Nat.eqb_refl. destruct (Nat.eqb_spec semi x); [congruence|]. reflexivity. }
  assert (Hd : disjoint_grammars (gram (g_stmt R x semi)) (gram items)).
  { rewrite g_stmt_gram. split.
    - intros t (r & Hr & Ht) (r' & Hr' & Ht'). destruct (Hin r' Hr') as (c & Hc' & <-). destruct (Hb c Hc') as (_ & _ & _ & H1 & H2).
      assert (Hcs : t = TSym x \/ t = TSym semi \/ t = TErr) by (repeat destruct Hr as [<-|Hr]; try destruct Hr; simpl in Ht; intuition congruence).
      destruct Hcs as [->|[->| ->]]; auto. apply Hf. exists (cr_rule c). auto.
    - intros A (r & Hr & HA) (r' & Hr' & HA'). assert (A = R) as ->.
      { repeat destruct Hr as [<-|Hr]; try destruct Hr; simpl in HA; intuition congruence. }
      destruct (Hin r' Hr') as (c & Hc' & <-). destruct (Hb c Hc') as (H1 & _ & H2 & _). tauto. }
  assert (Hs1 : start_defined (g_stmt R x semi)) by (exists (mk_rule R []); split; [rewrite g_stmt_gram; simpl; auto|reflexivity]).
  split; [exact (nest_productive (g_stmt R x semi) x items s Hn (g_stmt_prod R x semi) Hp Hs)|].
  destruct (g_stmt_made R x semi Hx) as [P1 HP1].
  eapply (C78_nested unit bool unit N T E N T E (const R) (numbers x semi) nix tix nix tix env0 e0 e (g_stmt R x semi) items s x P1 P0); eauto.
  - apply coded_api.
  - apply g_stmt_prod.
  - apply g_stmt_twice. auto.
  - intros D. eapply (proj1 (no_empty_der (gram items) (fun r Hr => ltac:(destruct (Hin r Hr) as (c & Hc' & <-); destruct (Hb c Hc') as (_ & H1 & _); exact H1)))); eauto.
Qed.
Print Assumptions C76_made.

(** ** C25: without warnings and without error rules, what is returned is the value along a derivation *)
Theorem C25_value : forall N T E (nix : N -> nat) (tix : T -> nat) e (s : syntax N T E) P w v,
  api_syntax nix tix s -> makes e s P [] -> error_free s -> ~ cyclic (gram s) (sx_start s) ->
  (returns tix P w (ROk v) <-> value tix (sx_rules s) (NT (sx_start s)) w (NonTerminal v)).
Proof.
  intros N T E nix tix e s P w v Ha Hmk Hf Hc. rewrite value_proper. split.
  - intros H. apply (C21_sound N T E nix tix e s P [] w v Ha Hmk Hf H).
  - intros (t & H1 & H2). destruct (C25_evaluation N T E nix tix e s P w t Ha Hmk Hc H1) as [H _]. rewrite H2 in H. exact H.
Qed.
Print Assumptions C25_value.

(** ** C79: separated lists *)
Section SepProofs.
  Context {N T E : Type} (tix : T -> nat) (base : list (crule N T E)) (X L sep : nat) (g1 g2 : reducer N T E).
  Hypothesis Hb : item_rules base X L sep.
  Notation s := (sep_list base X L sep g1 g2).
  Notation items := (mk_syntax base X).
  Definition below (Y : sym) : Prop := Y <> NT L /\ Y <> TM (TSym sep).
  Lemma base_rhs c : In c base -> Forall below (r_rhs (cr_rule c)).
  Proof. intros Hc. destruct Hb as [_ H]. destruct (H c Hc) as (_ & H1 & H2). apply Forall_forall. intros Y HY. split; congruence. Qed.
  Lemma sep_gram : gram s = gram items ++ [ mk_rule L [NT X]; mk_rule L [NT L; TM (TSym sep); NT X] ].
  Proof. exact (gram_more base _ X L). Qed.
  Lemma base_value : (forall Y u a, value tix (sx_rules s) Y u a -> below Y -> value tix base Y u a) /\ (forall l u args, values tix (sx_rules s) l u args -> Forall below l -> values tix base l u args).
  Proof.
    apply value_values_ind.
    - intros. constructor.
    - intros r u args v Hr _ IH Hg [HY _]. apply in_app_or in Hr as [Hr|Hr]; [|exfalso; apply HY; repeat destruct Hr as [<-|Hr]; try destruct Hr; reflexivity].
      econstructor; eauto. apply IH. apply base_rhs. auto.
    - constructor.
    - intros Y l u u' a args _ I1 _ I2 Hf. inversion Hf; subst. constructor; auto.
  Qed.
  Lemma value_more : (forall Y u a, value tix base Y u a -> value tix (sx_rules s) Y u a) /\ (forall l u args, values tix base l u args -> values tix (sx_rules s) l u args).
  Proof. apply value_values_ind; intros; econstructor; eauto. apply in_or_app. auto. Qed.
  Lemma X_below : below (NT X).
  Proof. destruct Hb as [H _]. split; congruence. Qed.
  Lemma sep_values w a : value tix (sx_rules s) (NT L) w a <-> exists v, a = NonTerminal v /\ listed tix (fun u b => value tix base (NT X) u (NonTerminal b)) sep g1 g2 w v.
  Proof.
    split.
    - assert (H : forall n w a, length w <= n -> value tix (sx_rules s) (NT L) w a -> exists v, a = NonTerminal v /\ listed tix (fun u b => value tix base (NT X) u (NonTerminal b)) sep g1 g2 w v); [|eauto].
      clear w a. induction n as [n IH] using lt_wf_ind. intros w a Hn Hv. inversion Hv as [|r u args v Hr Hvs Hg E1 E2 E3]. subst u a. exists v. split; auto.
      assert (HX : forall u a, value tix (sx_rules s) (NT X) u a -> exists b, a = NonTerminal b /\ value tix base (NT X) u (NonTerminal b)).
      { intros u a Ha. apply (proj1 base_value) in Ha; [|apply X_below]. inversion Ha; subst. eauto. }
      rewrite E1 in Hr, Hvs. apply in_app_or in Hr as [Hr|[Hr|[Hr|[]]]]; [|subst r|subst r].
      + destruct Hb as [_ H]. destruct (H r Hr). congruence.
      + cbn [rule_new_raw cr_rule r_rhs map] in Hvs. simpl in Hvs. inversion Hvs as [|? ? u u' a args' A1 A2]; subst. inversion A2; subst. rewrite app_nil_r in *. destruct (HX _ _ A1) as (b & -> & A3). eapply listed_one; eauto.
      + simpl in Hvs. inversion Hvs as [|? ? u1 u' a args' A1 A2]; subst. inversion A2 as [|? ? u2 u'' a2 args'' A3 A4]; subst. inversion A4 as [|? ? u3 u4 a3 args3 A5 A6]; subst. inversion A6; subst. inversion A3; subst.
        destruct (HX _ _ A5) as (b & -> & A7). rewrite app_nil_r in *. rewrite app_length in Hn. simpl in Hn.
        destruct (IH (length u1) ltac:(lia) u1 a (le_n _) A1) as (v' & -> & A8). simpl. eapply listed_more; eauto.
    - intros (v & -> & H). induction H as [u b v Hi Hg|w v' x u b v _ IH Hx Hi Hg].
      + change (NT L) with (NT (r_lhs (cr_rule (rule_new_raw L [NonTerminal X] g1)))). eapply value_rule with (args := [NonTerminal b]); eauto.
        * apply in_or_app. right. left. auto.
        * simpl. rewrite <- (app_nil_r u). constructor; [apply value_more; auto|constructor].
      + change (NT L) with (NT (r_lhs (cr_rule (rule_new_raw L [NonTerminal L; Terminal sep; NonTerminal X] g2)))). eapply value_rule with (args := [NonTerminal v'; Terminal x; NonTerminal b]); eauto.
        * apply in_or_app. right. right. left. auto.
        * simpl. constructor; auto. pose proof (proj1 value_more _ _ _ Hi) as Hi'. clear Hi Hg. subst sep. change (x :: u) with ([x] ++ u). constructor; [constructor|]. rewrite <- (app_nil_r u). constructor; [exact Hi'|constructor].
  Qed.
  Lemma rewr_below l l' : rewr (gram s) l l' -> Forall below l -> Forall below l'.
  Proof.
    induction 1 as [|l1 r l2 l' Hr _ IH]; auto. intros Hf. apply Forall_app in Hf as [F1 F2]. inversion F2 as [|? ? [F3 _] F4]; subst. apply IH. apply Forall_app. split; auto. apply Forall_app. split; auto.
    rewrite sep_gram in Hr. apply in_app_or in Hr as [Hr|[<-|[<-|[]]]]; try (exfalso; apply F3; reflexivity). apply in_map_iff in Hr as (c & <- & Hc). apply base_rhs. auto.
  Qed.
  Lemma rewr_keeps rs l l' t : rewr rs l l' -> In (TM t) l -> In (TM t) l'.
  Proof. induction 1 as [|l1 r l2 l' Hr _ IH]; auto. intros Hi. apply IH. apply in_app_or in Hi as [Hi|[Hi|Hi]]; [|discriminate|]; rewrite !in_app_iff; auto. Qed.
  Lemma sep_not_cyclic : ~ cyclic (gram s) L.
  Proof.
    intros (r & Hr & HL & Hw). rewrite sep_gram in Hr. apply in_app_or in Hr as [Hr|[<-|[<-|[]]]].
    - apply in_map_iff in Hr as (c & <- & Hc). destruct Hb as [_ H]. destruct (H c Hc). auto.
    - apply rewr_below in Hw; [inversion Hw as [|? ? [HY _]]; subst; congruence|]. constructor; auto. apply X_below.
    - apply rewr_keeps with (t := TSym sep) in Hw; [|simpl; auto]. destruct Hw as [Hw|[]]. discriminate.
  Qed.
  Lemma sep_error_free : error_free items -> error_free s.
  Proof.
    intros H r Hr. rewrite sep_gram in Hr. apply in_app_or in Hr as [Hr|[<-|[<-|[]]]]; [apply H; auto| |]; simpl; intuition discriminate.
  Qed.
End SepProofs.

(** a warning-free grammar of items gives a warning-free grammar of lists *)
Theorem C79_made : forall N T E (nix : N -> nat) (tix : T -> nat) e0 e base X L sep (g1 g2 : reducer N T E) P0,
  let items := mk_syntax base X in let s := sep_list base X L sep g1 g2 in
  api_syntax nix tix items -> makes e0 items P0 [] -> productive (gram items) -> start_defined items -> ~ cyclic (gram items) X -> ~ der (gram items) (NT X) [] ->
  item_rules base X L sep -> lr_env_ok e ->
  api_syntax nix tix s /\ productive (gram s) /\ exists P, makes e s P [].
Proof.
  intros N T E nix tix e0 e base X L sep g1 g2 P0 items s Ha0 Hm0 Hp Hs Hc Hnn [HX Hb] He.
  destruct (fresh_token (gram items) sep) as (x & Hx & Hf).
  assert (Hin : forall r, In r (gram items) -> exists c, In c base /\ cr_rule c = r) by (intros r Hr; apply in_map_iff in Hr as (c & <- & Hc'); eauto).
  assert (Ha : api_syntax nix tix s) by (apply (api_more nix tix base _ X); [exact Ha0|raw_rules]). split; auto.
  assert (Hn : nested (g_list L x sep) x items s).
  { split; [reflexivity|]. apply Permutation_refl'. rewrite g_list_gram. etransitivity; [exact (gram_more base _ X L)|]. f_equal. unfold put_rule. simpl.
    rewrite Nat.eqb_refl. destruct (Nat.eqb_spec sep x); [congruence|]. reflexivity. }
  assert (Hd : disjoint_grammars (gram (g_list L x sep)) (gram items)).
  { rewrite g_list_gram. split.
    - intros t (r & Hr & Ht) (r' & Hr' & Ht'). destruct (Hin r' Hr') as (c & Hc' & <-). destruct (Hb c Hc') as (_ & _ & H1).
      assert (Hcs : t = TSym x \/ t = TSym sep) by (repeat destruct Hr as [<-|Hr]; try destruct Hr; simpl in Ht; intuition congruence).
      destruct Hcs as [->| ->]; auto. apply Hf. exists (cr_rule c). auto.
    - intros A (r & Hr & HA) (r' & Hr' & HA'). assert (A = L) as -> by (repeat destruct Hr as [<-|Hr]; try destruct Hr; simpl in HA; intuition congruence).
      destruct (Hin r' Hr') as (c & Hc' & <-). destruct (Hb c Hc') as (H1 & H2 & _). tauto. }
  assert (Hs1 : start_defined (g_list L x sep)) by (exists (mk_rule L [TM (TSym x)]); split; [rewrite g_list_gram; simpl; auto|reflexivity]).
  split; [exact (nest_productive (g_list L x sep) x items s Hn (g_list_prod L x sep) Hp Hs)|].
  destruct (g_list_made L x sep Hx) as [P1 HP1].
  eapply (C78_nested unit bool unit N T E N T E (const L) (numbers x sep) nix tix nix tix env0 e0 e (g_list L x sep) items s x P1 P0); eauto.
  - apply coded_api.
  - apply g_list_prod.
  - apply g_list_twice. auto.
Qed.
Print Assumptions C79_made.

(** it returns the value of the list, from what the parser for the items returns for each of them *)
Theorem C79_value : forall N T E (nix : N -> nat) (tix : T -> nat) e0 e base X L sep (g1 g2 : reducer N T E) P0 P w v,
  let items := mk_syntax base X in let s := sep_list base X L sep g1 g2 in
  api_syntax nix tix items -> makes e0 items P0 [] -> error_free items -> ~ cyclic (gram items) X -> item_rules base X L sep -> makes e s P [] ->
  (returns tix P w (ROk v) <-> listed tix (fun u a => returns tix P0 u (ROk a)) sep g1 g2 w v).
Proof.
  intros N T E nix tix e0 e base X L sep g1 g2 P0 P w v items s Ha0 Hm0 Hf Hc Hb Hmk.
  assert (Ha : api_syntax nix tix s) by (apply (api_more nix tix base _ X); [exact Ha0|raw_rules]).
  rewrite (C25_value N T E nix tix e s P w v Ha Hmk (sep_error_free base X L sep g1 g2 Hf) (sep_not_cyclic base X L sep g1 g2 Hb)).
  change (sx_start s) with L. unfold s. rewrite (sep_values tix base X L sep g1 g2 Hb).
  assert (Hi : forall u a, returns tix P0 u (ROk a) <-> value tix base (NT X) u (NonTerminal a)) by (intros u a; apply (C25_value N T E nix tix e0 items P0 u a Ha0 Hm0 Hf Hc)).
  assert (Hl : forall I J : list T -> N -> Prop, (forall u a, I u a -> J u a) -> forall w v, listed tix I sep g1 g2 w v -> listed tix J sep g1 g2 w v) by (intros I J HIJ w' v' H; induction H; econstructor; eauto).
  split.
  - intros (v' & E0 & H). injection E0 as <-. eapply Hl; [|exact H]. intros u a. apply Hi.
  - intros H. exists v. split; auto. eapply Hl; [|exact H]. intros u a. apply Hi.
Qed.
Print Assumptions C79_value.

(** when the reducers do not fail, every list of items is accepted and everything else is rejected *)
Theorem C79_decides : forall N T E (nix : N -> nat) (tix : T -> nat) e base X L sep (g1 g2 : reducer N T E) P w,
  let items := mk_syntax base X in let s := sep_list base X L sep g1 g2 in
  api_syntax nix tix items -> productive (gram items) -> start_defined items -> error_free items -> item_rules base X L sep -> makes e s P [] -> total_on tix s w ->
  let accepted := list_of tix (derivable tix items) sep w in
  (accepted /\ exists v, returns tix P w (ROk v)) \/ (~ accepted /\ returns tix P w RNotFound).
Proof.
  intros N T E nix tix e base X L sep g1 g2 P w items s Ha0 Hp Hs Hf Hb Hmk Ht accepted.
  assert (Ha : api_syntax nix tix s) by (apply (api_more nix tix base _ X); [exact Ha0|raw_rules]).
  assert (Eg : gram s = gram items ++ [ mk_rule L [NT X]; mk_rule L [NT L; TM (TSym sep); NT X] ]) by apply sep_gram.
  assert (Hup : forall Y z, der (gram items) Y z -> der (gram s) Y z) by (intros Y z; apply der_incl; intros r Hr; rewrite Eg; apply in_or_app; auto).
  assert (HX : exists z, der (gram s) (NT X) z).
  { destruct Hs as (r0 & Hr0 & E0). destruct (ders_all (gram items) (r_rhs r0)) as [z Hz]; [intros Z HZ; eapply Hp; eauto|]. exists z. apply Hup. change X with (sx_start items). rewrite <- E0. constructor; auto. }
  assert (Hps : productive (gram s)).
  { assert (HL : exists z, der (gram s) (NT L) z). { destruct HX as [z Hz]. exists z. change (NT L) with (NT (r_lhs (mk_rule L [NT X]))). constructor; [rewrite Eg; apply in_or_app; simpl; auto|]. apply ders_one. auto. }
    intros r Y Hr HY. rewrite Eg in Hr. apply in_app_or in Hr as [Hr|[<-|[<-|[]]]].
    - destruct (Hp r Y Hr HY) as [z Hz]. eauto.
    - destruct HY as [<-|[]]. auto.
    - destruct HY as [<-|[<-|[<-|[]]]]; auto. eexists. constructor. }
  assert (Hdown : (forall Y z, der (gram s) Y z -> below L sep Y -> der (gram items) Y z) /\ (forall l z, ders (gram s) l z -> Forall (below L sep) l -> ders (gram items) l z)).
  { apply der_ders_ind.
    - intros. constructor.
    - intros r z Hr _ IH [HY _]. rewrite Eg in Hr. apply in_app_or in Hr as [Hr|[<-|[<-|[]]]]; try (exfalso; apply HY; reflexivity). constructor; auto. apply IH. apply in_map_iff in Hr as (c & <- & Hc). apply (base_rhs base X L sep Hb); auto.
    - constructor.
    - intros Y l u v _ I1 _ I2 Hfo. inversion Hfo; subst. constructor; auto. }
  assert (HXb : below L sep (NT X)) by apply (X_below base X L sep Hb).
  assert (Hlist : derivable tix s w <-> accepted).
  { unfold derivable, accepted. change (sx_start s) with L. split.
    - assert (H : forall n w, length w <= n -> der (gram s) (NT L) (kinds tix w) -> list_of tix (derivable tix items) sep w); [|eauto].
      clear w Ht accepted. induction n as [n IH] using lt_wf_ind. intros w Hn Hw. inversion Hw as [|r z Hr Hd E1 E2]. subst z. rewrite Eg in Hr. apply in_app_or in Hr as [Hr|[<-|[<-|[]]]].
      + exfalso. apply in_map_iff in Hr as (c & <- & Hc). destruct Hb as [_ H]. destruct (H c Hc). auto.
      + cbn [r_rhs] in Hd. apply ders_one in Hd. apply list_one. exact (proj1 Hdown _ _ Hd HXb).
      + cbn [r_rhs] in Hd. inversion Hd as [|? ? z1 z2 A1 A2 E3 E4]. subst. apply ders_tm in A2 as (z3 & -> & A2). apply ders_one in A2. unfold kinds in E4. symmetry in E4. apply map_eq_app in E4 as (w1 & w2 & -> & <- & E5). apply map_eq_cons in E5 as (x & w3 & -> & E6 & <-).
        injection E6 as E6. apply list_more; auto; [|exact (proj1 Hdown _ _ A2 HXb)]. rewrite app_length in Hn. simpl in Hn. apply (IH (length w1)); auto. lia.
    - clear Ht accepted. induction 1 as [u Hu|w' x u _ IH Hx Hu].
      + change (NT L) with (NT (r_lhs (mk_rule L [NT X]))). constructor; [rewrite Eg; apply in_or_app; simpl; auto|]. apply ders_one. apply Hup. exact Hu.
      + change (NT L) with (NT (r_lhs (mk_rule L [NT L; TM (TSym sep); NT X]))). constructor; [rewrite Eg; apply in_or_app; simpl; auto|]. cbn [r_rhs]. unfold kinds. rewrite map_app. simpl. rewrite Hx. constructor.
        * exact IH.
        * change (TSym sep :: map (fun x0 => TSym (tix x0)) u) with ([TSym sep] ++ map (fun x0 => TSym (tix x0)) u). constructor; [constructor|]. apply ders_one. apply Hup. exact Hu. }
  rewrite <- Hlist. apply (C23_decides_partial N T E nix tix e s P w Ha Hmk); auto. apply sep_error_free. auto.
Qed.
Print Assumptions C79_decides.

(** ** Examples *)
Ltac not_cyclic rank := apply (ranked_not_cyclic _ rank); unfold gram; simpl; repeat apply Forall_cons; try apply Forall_nil; try discriminate;
  first [left; eexists; simpl; eauto; fail | right; left; simpl; lia | right; right; eexists; split; [reflexivity|simpl; lia]].
Ltac sep_tac := repeat apply Forall_cons; try apply Forall_nil; simpl; repeat split; auto; first [left; eexists; split; [reflexivity|discriminate] | right; eexists; split; [reflexivity|discriminate]].
Ltac not_empty := intros D; refine (proj1 (no_empty_der _ _) _ _ D eq_refl); intros r Hr; simpl in Hr; repeat destruct Hr as [<-|Hr]; try destruct Hr; discriminate.
Ltac mk1 := split; [apply env0_ok|]; exists 2000; vm_compute; reflexivity.

(** blocks of expressions, with blocks in blocks: B ::= { C };  C ::= D | C ; D;  D ::= x | B
    with { = 20, } = 21, ; = 22, x = 23 and expressions of the table [calc] for x; the value is the sum *)
Section Blocks.
  Open Scope Z_scope.
  Definition blk_add : reducer Z tok nat := fun args => match args with [NonTerminal a; Terminal _; NonTerminal b] => GOk (a + b) | _ => GPanic end.
  Definition blk_mid : reducer Z tok nat := fun args => match args with [Terminal _; NonTerminal a; Terminal _] => GOk a | _ => GPanic end.
End Blocks.
Definition blk_rules (x : symbol nat nat unit) (g : reducer Z tok nat) : list (crule Z tok nat) :=
  [ rule_new_raw 30 [Terminal 20; NonTerminal 31; Terminal 21] blk_mid; rule_new_raw 31 [NonTerminal 32] same; rule_new_raw 31 [NonTerminal 31; Terminal 22; NonTerminal 32] blk_add;
    rule_new_raw 32 [x] g; rule_new_raw 32 [NonTerminal 30] same ].
Definition blk : syntax Z tok nat := mk_syntax (blk_rules (Terminal 23) number) 30.
Definition blk_calc : syntax Z tok nat := mk_syntax (blk_rules (NonTerminal 0) same ++ sx_rules (table_syntax calc)) 30.
Definition P_blk : parser Z tok nat := Eval vm_compute in made_parser (lr1_new env0 1000 blk).
Definition P_blk_calc : parser Z tok nat := Eval vm_compute in made_parser (lr1_new env0 2000 blk_calc).
Definition no_z : Z -> nat := fun _ => 0.
(** { 1 + 2 ; { 3 * ( 4 - 5 ) ; 6 ! } } *)
Definition w_blk : list tok := [sign 20; num 1; sign 1; num 2; sign 22; sign 20; num 3; sign 3; sign 5; num 4; sign 2; num 5; sign 6; sign 22; num 6; sign 7; sign 21; sign 21].
Lemma calc_defined : start_defined (table_syntax calc).
Proof. eexists. split; [left; reflexivity|reflexivity]. Qed.
Lemma calc_nonempty : ~ der (gram (table_syntax calc)) (NT 0) [].
Proof. not_empty. Qed.
Lemma blk_productive : productive (gram blk).
Proof. apply (prod_check_sound _ 4). reflexivity. Qed.
Lemma blk_calc_total w : total_on fst blk_calc w.
Proof.
  exists (fun _ _ => True). intros r args Hr (Hf & _) _. simpl in Hr. repeat destruct Hr as [<-|Hr]; try destruct Hr; simpl in *.
  all: repeat match goal with H : Forall2 _ (_ :: _) _ |- _ => inversion H; clear H; subst | H : Forall2 _ [] _ |- _ => inversion H; clear H; subst
    | H : fits _ _ ?a |- _ => destruct a; simpl in H; try contradiction; clear H end.
  all: simpl; eexists; split; [reflexivity|exact I].
Qed.
Example C78_example : api_syntax no_z fst blk /\ makes env0 blk P_blk [] /\ productive (gram blk) /\ start_defined blk /\ error_free blk /\
  api_syntax no_z fst (table_syntax calc) /\ makes env0 (table_syntax calc) P_calc [] /\ productive (gram (table_syntax calc)) /\ start_defined (table_syntax calc) /\ error_free (table_syntax calc) /\
  disjoint_grammars (gram blk) (gram (table_syntax calc)) /\ never_twice (gram blk) (sx_start blk) 23 /\
  ~ der (gram (table_syntax calc)) (NT (sx_start (table_syntax calc))) [] /\ ~ cyclic (gram (table_syntax calc)) (sx_start (table_syntax calc)) /\
  nested blk 23 (table_syntax calc) blk_calc /\ api_syntax no_z fst blk_calc /\ lr_env_ok env0 /\ makes env0 blk_calc P_blk_calc [] /\ total_on fst blk_calc w_blk /\
  returns fst P_blk_calc w_blk (ROk (1 + 2 + (3 * (4 - 5) + 2 * 6))%Z).
Proof.
  split; [raw_rules|]. split; [mk1|]. split; [apply blk_productive|]. split; [eexists; split; [left; reflexivity|reflexivity]|].
  split; [intros r Hr; simpl in Hr; repeat destruct Hr as [<-|Hr]; try destruct Hr; simpl; intuition discriminate|].
  split; [apply op_api|]. split; [mk1|]. split; [apply op_productive, calc_proper|]. split; [apply calc_defined|]. split; [apply op_error_free|].
  split; [apply disjoint_check_ok; vm_compute; reflexivity|]. split; [apply separated_twice; unfold gram; simpl; sep_tac|]. split; [apply calc_nonempty|]. split; [apply op_not_cyclic|].
  split; [split; [reflexivity|]; change (gram blk_calc) with (map (put_rule 23 0) (gram blk) ++ gram (table_syntax calc)); apply Permutation_app_comm|].
  split; [raw_rules|]. split; [apply env0_ok|]. split; [mk1|]. split; [apply blk_calc_total|]. exists 1000. vm_compute. reflexivity.
Qed.

(** ** The conditions are needed *)
Definition nrule (A : nat) (l : list (symbol nat nat unit)) : crule nat nat nat := rule_new_raw A l (fun _ => GOk 0).
Definition nst (rules : list (crule nat nat nat)) (A : nat) : syntax nat nat nat := mk_syntax rules A.
Definition all_but (tw nu cy di : bool) : Prop :=
  exists (s1 s2 s : syntax nat nat nat) x (P1 P2 P : parser nat nat nat) ws,
    api_syntax self self s1 /\ makes env0 s1 P1 [] /\ productive (gram s1) /\ start_defined s1 /\
    api_syntax self self s2 /\ makes env0 s2 P2 [] /\ productive (gram s2) /\ start_defined s2 /\
    (di = false -> disjoint_grammars (gram s1) (gram s2)) /\ (tw = false -> never_twice (gram s1) (sx_start s1) x) /\
    (nu = false -> ~ der (gram s2) (NT (sx_start s2)) []) /\ (cy = false -> ~ cyclic (gram s2) (sx_start s2)) /\
    nested s1 x s2 s /\ api_syntax self self s /\ makes env0 s P ws /\ ws <> ([] : list warning).
Ltac prod_tac := apply (prod_check_sound _ 4); reflexivity.
Ltac def_tac := eexists; split; [left; reflexivity|reflexivity].
Ltac base_tac := split; [raw_rules|]; split; [mk1|]; split; [prod_tac|]; split; [def_tac|].
Ltac end_tac := split; [split; [reflexivity|apply Permutation_refl']; reflexivity|]; split; [raw_rules|]; split; [mk1|discriminate].

(** two items next to each other: S ::= x x with X ::= a | X a *)
Theorem C78_twice_needed : all_but true false false false.
Proof.
  exists (nst [nrule 5 [Terminal 9; Terminal 9]] 5), (nst [nrule 0 [Terminal 1]; nrule 0 [NonTerminal 0; Terminal 1]] 0), (nst [nrule 0 [Terminal 1]; nrule 0 [NonTerminal 0; Terminal 1]; nrule 5 [NonTerminal 0; NonTerminal 0]] 5), 9.
  eexists _, _, _, _. base_tac. base_tac. split; [intros _; apply disjoint_check_ok; vm_compute; reflexivity|]. split; [discriminate|]. split; [intros _; not_empty|]. split; [intros _; not_cyclic (fun _ : nat => 0)|]. end_tac.
Qed.
Print Assumptions C78_twice_needed.
Lemma rewr_terms rs l l' : rewr rs l l' -> (forall A, ~ In (NT A) l) -> l' = l.
Proof. intros H. inversion H as [|l1 r l2 l0 Hr]; subst; auto. intros Hn. exfalso. apply (Hn (r_lhs r)). apply in_or_app. right. left. auto. Qed.
(** an item that may be empty: S ::= x | (nothing) with X ::= a | (nothing) *)
Theorem C78_nonempty_needed : all_but false true false false.
Proof.
  exists (nst [nrule 5 [Terminal 9]; nrule 5 []] 5), (nst [nrule 0 [Terminal 1]; nrule 0 []] 0), (nst [nrule 0 [Terminal 1]; nrule 0 []; nrule 5 [NonTerminal 0]; nrule 5 []] 5), 9.
  eexists _, _, _, _. base_tac. base_tac. split; [intros _; apply disjoint_check_ok; vm_compute; reflexivity|]. split; [intros _; apply separated_twice; unfold gram; simpl; sep_tac|]. split; [discriminate|]. split.
  - intros _ (r & Hr & _ & Hw). repeat destruct Hr as [<-|Hr]; try destruct Hr; apply rewr_terms in Hw; try discriminate Hw; intros A HA; simpl in HA; intuition discriminate.
  - end_tac.
Qed.
Print Assumptions C78_nonempty_needed.

(** an item that rewrites to itself: S ::= x b with X ::= X | a.  The grammar of the items alone has no warnings. *)
Theorem C78_cyclic_needed : all_but false false true false.
Proof.
  exists (nst [nrule 5 [Terminal 9; Terminal 2]] 5), (nst [nrule 0 [NonTerminal 0]; nrule 0 [Terminal 1]] 0), (nst [nrule 0 [NonTerminal 0]; nrule 0 [Terminal 1]; nrule 5 [NonTerminal 0; Terminal 2]] 5), 9.
  eexists _, _, _, _. base_tac. base_tac. split; [intros _; apply disjoint_check_ok; vm_compute; reflexivity|]. split; [intros _; apply separated_twice; unfold gram; simpl; sep_tac|]. split; [intros _; not_empty|]. split; [discriminate|]. end_tac.
Qed.
Print Assumptions C78_cyclic_needed.
(** a token in both grammars: S ::= x a b with X ::= a | a a *)
Theorem C78_disjoint_needed : all_but false false false true.
Proof.
  exists (nst [nrule 5 [Terminal 9; Terminal 1; Terminal 2]] 5), (nst [nrule 0 [Terminal 1]; nrule 0 [Terminal 1; Terminal 1]] 0), (nst [nrule 0 [Terminal 1]; nrule 0 [Terminal 1; Terminal 1]; nrule 5 [NonTerminal 0; Terminal 1; Terminal 2]] 5), 9.
  eexists _, _, _, _. base_tac. base_tac. split; [discriminate|]. split; [intros _; apply separated_twice; unfold gram; simpl; sep_tac|]. split; [intros _; not_empty|]. split; [intros _; not_cyclic (fun _ : nat => 0)|]. end_tac.
Qed.
Print Assumptions C78_disjoint_needed.

(** ** C76: statements of the table [calc], ended by the token 8; the statement may not rewrite to itself *)
Definition zst_g1 : reducer Z tok nat := fun args => match args with [NonTerminal a; Terminal _; NonTerminal b] => GOk (a + b)%Z | _ => GPanic end.
Definition zst_g2 : reducer Z tok nat := fun args => match args with [ErrorSym l; Terminal _; NonTerminal b] => GOk (b - 1000)%Z | _ => GPanic end.
Definition zst_g3 : reducer Z tok nat := fun _ => GOk 0%Z.
Definition zst : syntax Z tok nat := stmt_list (sx_rules (table_syntax calc)) 0 10 8 zst_g1 zst_g2 zst_g3.
Lemma calc_stmt : statement_rules (sx_rules (table_syntax calc)) 0 10 8.
Proof. split; [discriminate|]. intros r Hr. simpl in Hr. repeat destruct Hr as [<-|Hr]; try destruct Hr; simpl; repeat split; try discriminate; intros H; repeat (destruct H as [H|H]; try discriminate H); auto. Qed.
(** 1 + 2 ; 1 + ; 3 * 4 ; *)
Definition w_zst : list tok := [num 1; sign 1; num 2; sign 8; num 1; sign 1; sign 8; num 3; sign 3; num 4; sign 8].
Example C76_made_example : api_syntax no_z fst (mk_syntax (sx_rules (table_syntax calc)) 0) /\ makes env0 (mk_syntax (sx_rules (table_syntax calc)) 0) P_calc [] /\
  productive (gram (mk_syntax (sx_rules (table_syntax calc)) 0)) /\ start_defined (mk_syntax (sx_rules (table_syntax calc)) 0) /\ ~ cyclic (gram (mk_syntax (sx_rules (table_syntax calc)) 0)) 0 /\
  statement_rules (sx_rules (table_syntax calc)) 0 10 8 /\ exists P, makes env0 zst P [] /\ returns fst P w_zst (ROk (1 + 2 + (-1000) + 3 * 4)%Z).
Proof.
  split; [apply op_api|]. split; [mk1|]. split; [exact (op_productive calc calc_proper)|]. split; [apply calc_defined|]. split; [exact (op_not_cyclic calc)|]. split; [apply calc_stmt|].
  exists (made_parser (lr1_new env0 2000 zst)). split; [mk1|exists 1000; vm_compute; reflexivity].
Qed.
Theorem C76_made_cyclic_needed : exists base X R semi (g1 g2 g3 : reducer nat nat nat) P0 P ws,
  api_syntax self self (mk_syntax base X) /\ makes env0 (mk_syntax base X) P0 [] /\ productive (gram (mk_syntax base X)) /\ start_defined (mk_syntax base X) /\
  statement_rules base X R semi /\ makes env0 (stmt_list base X R semi g1 g2 g3) P ws /\ ws <> [].
Proof.
  exists [nrule 0 [NonTerminal 0]; nrule 0 [Terminal 1]], 0, 1, 2, (fun _ => GOk 0), (fun _ => GOk 0), (fun _ => GOk 0). eexists _, _, _. base_tac. split.
  - split; [discriminate|]. intros r Hr. repeat destruct Hr as [<-|Hr]; try destruct Hr; simpl; repeat split; try discriminate; intros H; repeat (destruct H as [H|H]; try discriminate H); auto.
  - split; [mk1|discriminate].
Qed.
Print Assumptions C76_made_cyclic_needed.

(** ** C79: a list of expressions of the table [calc] with the separator 8; the value is 100 times that of the list before, plus the last *)
Definition zl_g2 : reducer Z tok nat := fun args => match args with [NonTerminal a; Terminal _; NonTerminal b] => GOk (100 * a + b)%Z | _ => GPanic end.
Definition zl : syntax Z tok nat := sep_list (sx_rules (table_syntax calc)) 0 10 8 same zl_g2.
Definition P_zl : parser Z tok nat := Eval vm_compute in made_parser (lr1_new env0 2000 zl).
(** 1 + 2 , 4 , 5 - 6 - 7 *)
Definition w_zl : list tok := [num 1; sign 1; num 2; sign 8; num 4; sign 8; num 5; sign 2; num 6; sign 2; num 7].
Lemma zl_total w : total_on fst zl w.
Proof.
  exists (fun _ _ => True). intros r args Hr (Hf & _) _. simpl in Hr. repeat destruct Hr as [<-|Hr]; try destruct Hr; simpl in *.
  all: repeat match goal with H : Forall2 _ (_ :: _) _ |- _ => inversion H; clear H; subst | H : Forall2 _ [] _ |- _ => inversion H; clear H; subst
    | H : fits _ _ ?a |- _ => destruct a; simpl in H; try contradiction; clear H end.
  all: simpl; eexists; split; [reflexivity|exact I].
Qed.
Example C79_example : let items := mk_syntax (sx_rules (table_syntax calc)) 0 in
  api_syntax no_z fst items /\ makes env0 items P_calc [] /\ productive (gram items) /\ start_defined items /\ error_free items /\ ~ cyclic (gram items) 0 /\ ~ der (gram items) (NT 0) [] /\
  item_rules (sx_rules (table_syntax calc)) 0 10 8 /\ makes env0 zl P_zl [] /\ total_on fst zl w_zl /\
  returns fst P_zl w_zl (ROk (100 * (100 * (1 + 2) + 4) + (5 - 6 - 7))%Z) /\ returns fst P_zl [num 1; sign 8] RNotFound.
Proof.
  split; [apply op_api|]. split; [mk1|]. split; [exact (op_productive calc calc_proper)|]. split; [apply calc_defined|]. split; [exact (op_error_free calc)|]. split; [exact (op_not_cyclic calc)|]. split; [apply calc_nonempty|].
  split. { split; [discriminate|]. intros r Hr. simpl in Hr. repeat destruct Hr as [<-|Hr]; try destruct Hr; simpl; repeat split; try discriminate; intros H; repeat (destruct H as [H|H]; try discriminate H); auto. }
  split; [mk1|]. split; [apply zl_total|]. split; exists 1000; vm_compute; reflexivity.
Qed.
(** an item that rewrites to itself: L ::= X | L , X with X ::= X | a *)
Theorem C79_cyclic_needed : exists base X L sep (g1 g2 : reducer nat nat nat) P0 P ws,
  api_syntax self self (mk_syntax base X) /\ makes env0 (mk_syntax base X) P0 [] /\ productive (gram (mk_syntax base X)) /\ start_defined (mk_syntax base X) /\
  ~ der (gram (mk_syntax base X)) (NT X) [] /\ item_rules base X L sep /\ makes env0 (sep_list base X L sep g1 g2) P ws /\ ws <> [].
Proof.
  exists [nrule 0 [NonTerminal 0]; nrule 0 [Terminal 1]], 0, 1, 2, (fun _ => GOk 0), (fun _ => GOk 0). eexists _, _, _. base_tac. split; [not_empty|]. split.
  - split; [discriminate|]. intros r Hr. repeat destruct Hr as [<-|Hr]; try destruct Hr; simpl; repeat split; try discriminate; intros H; repeat (destruct H as [H|H]; try discriminate H); auto.
  - split; [mk1|discriminate].
Qed.
Print Assumptions C79_cyclic_needed.
