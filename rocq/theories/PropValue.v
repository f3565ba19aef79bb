(** * Property C88: a grammar inside another one computes as the outer one on the values of the inner one *)
From Coq Require Import List Arith Lia Bool Permutation ZArith.
From Verif Require Import Lib Grammar LrModel LrSpec ParseModel Trees ParseSpec GramFacts ParseTop ParseExamples PropParse PropLr NumSpec PropNum PropRecover ProdCheck StmtSpec PropStmt OpSpec OpTop PropOp RuleMap NestSpec NestCyc ValueSpec PropNest.
Import ListNotations.

Section Proofs.
  Context {N T E : Type} (tix : T -> nat) (x : nat) (s1 : syntax N (T + N) E) (s2 s : syntax N T E).
  Hypothesis Hn : nested_values tix x s1 s2 s.
  Hypothesis Hd : disjoint_grammars (gram s1) (gram s2).
  Hypothesis Hs2 : start_defined s2.
  Notation X := (sx_start s2).
  Notation put := (put_sym x X).
  Notation tix1 := (outer_ix (N := N) tix x).
  Notation base := (sx_rules s). Notation base1 := (sx_rules s1). Notation base2 := (sx_rules s2).
  Let I (u : list T) (a : N) : Prop := value tix base2 (NT X) u (NonTerminal a).
  Notation spelled := (spelled tix x I).

  Lemma nv_nested : nested s1 x s2 s.
  Proof.
    destruct Hn as (Es & rs & HF & Hp). split; auto. unfold gram. apply (Permutation_map cr_rule) in Hp. rewrite map_app in Hp.
    replace (map (put_rule x X) (map cr_rule base1)) with (map cr_rule rs); auto. clear Hp. induction HF as [|r1 r l l' [H _] HF IH]; cbn; congruence.
  Qed.
  Lemma nv_low r : In r base2 -> In r base.
  Proof. destruct Hn as (_ & rs & _ & Hp). intros H. eapply Permutation_in; [apply Permutation_sym; exact Hp|]. apply in_or_app; auto. Qed.
  Lemma nv_high r1 : In r1 base1 -> exists r, In r base /\ inside tix x X r1 r.
  Proof.
    destruct Hn as (_ & rs & HF & Hp). intros H. assert (exists r, In r rs /\ inside tix x X r1 r) as (r & Hr & Hi).
    { clear Hp. induction HF as [|a b l l' Hab HF IH]; [destruct H|]. destruct H as [->|H]; [exists b; simpl; auto|]. destruct (IH H) as (r & H1 & H2). exists r. simpl; auto. }
    exists r. split; auto. eapply Permutation_in; [apply Permutation_sym; exact Hp|]. apply in_or_app; auto.
  Qed.
  Lemma nv_cases r : In r base -> In r base2 \/ exists r1, In r1 base1 /\ inside tix x X r1 r.
  Proof.
    destruct Hn as (_ & rs & HF & Hp). intros H. apply (Permutation_in _ Hp), in_app_or in H as [H|H]; auto. right.
    clear Hp. induction HF as [|a b l l' Hab HF IH]; [destruct H|]. destruct H as [->|H]; [exists a; simpl; auto|]. destruct (IH H) as (r1 & H1 & H2). exists r1. simpl; auto.
  Qed.
  Lemma in_gram {A B C} (s0 : syntax A B C) r : In r (sx_rules s0) -> In (cr_rule r) (gram s0).
  Proof. apply in_map. Qed.

  (** the symbols of the two grammars *)
  Definition of2 (Z : sym) : Prop := match Z with NT A => has_nonterminal (gram s2) A | TM _ => True end.
  Definition of1 (Z : sym) : Prop := match Z with NT A => has_nonterminal (gram s1) A | TM _ => True end.
  Lemma rhs2 r : In r base2 -> Forall of2 (r_rhs (cr_rule r)).
  Proof. intros H. apply Forall_forall. intros [A|t] HA; cbn; auto. exists (cr_rule r). split; [apply in_gram; auto|auto]. Qed.
  Lemma rhs1 r : In r base1 -> Forall of1 (r_rhs (cr_rule r)).
  Proof. intros H. apply Forall_forall. intros [A|t] HA; cbn; auto. exists (cr_rule r). split; [apply in_gram; auto|auto]. Qed.
  Lemma lhs1 r1 : In r1 base1 -> has_nonterminal (gram s1) (r_lhs (cr_rule r1)).
  Proof. intros H. exists (cr_rule r1). split; [apply in_gram; auto|auto]. Qed.
  Lemma lhs2 r : In r base2 -> has_nonterminal (gram s2) (r_lhs (cr_rule r)).
  Proof. intros H. exists (cr_rule r). split; [apply in_gram; auto|auto]. Qed.
  Lemma X2 : has_nonterminal (gram s2) X.
  Proof. destruct Hs2 as (r & Hr & E0). exists r. auto. Qed.

  Lemma value_fits : (forall Z u a, value tix base Z u a -> fits tix Z a) /\ (forall l u args, values tix base l u args -> Forall2 (fits tix) l args).
  Proof. apply value_values_ind; intros; cbn; auto. Qed.
  (** the items *)
  Lemma item_up : (forall Z u a, value tix base2 Z u a -> value tix base Z u a) /\ (forall l u args, values tix base2 l u args -> values tix base l u args).
  Proof.
    apply value_values_ind.
    - constructor.
    - intros r u args v Hr _ IH Hg. econstructor; eauto. apply nv_low; auto.
    - constructor.
    - intros. constructor; auto.
  Qed.
  Lemma item_down : (forall Z u a, value tix base Z u a -> of2 Z -> value tix base2 Z u a) /\ (forall l u args, values tix base l u args -> Forall of2 l -> values tix base2 l u args).
  Proof.
    apply value_values_ind.
    - intros y _. constructor.
    - intros r u args v Hr _ IH Hg H2. destruct (nv_cases r Hr) as [Hr2|(r1 & Hr1 & Er & _)].
      + econstructor; eauto. apply IH. apply rhs2; auto.
      + exfalso. cbn in H2. rewrite Er in H2. cbn in H2. apply (proj2 Hd _ (lhs1 _ Hr1) H2).
    - intros _. constructor.
    - intros Y l u u' a args _ H1 _ H2 HF. inversion HF; subst. constructor; auto.
  Qed.

  Lemma spelled_app a b : spelled a b -> forall a' b', spelled a' b' -> spelled (a ++ a') (b ++ b').
  Proof. induction 1 as [|u v w1 w Hu Hf IH|t w1 w Ht Hf IH]; intros a' b' H'; cbn [app]; auto; [rewrite <- app_assoc; constructor; auto|constructor; auto]. Qed.
  Lemma spelled_split a a' : forall b, spelled (a ++ a') b -> exists c c', b = c ++ c' /\ spelled a c /\ spelled a' c'.
  Proof.
    induction a as [|y a IH]; intros b H.
    - exists [], b. repeat split; auto. constructor.
    - cbn in H. inversion H as [|u v w1 w Hu Hf|t w1 w Ht Hf]; subst; destruct (IH _ Hf) as (c & c' & -> & H1 & H2).
      + exists (u ++ c), c'. rewrite app_assoc. repeat split; auto. constructor; auto.
      + exists (t :: c), c'. repeat split; auto. constructor; auto.
  Qed.
  (** from the nested grammar to the outer one *)
  Lemma outer_down : (forall Z u a, value tix base Z u a -> forall Y, Z = put Y -> of1 Y -> exists w1, value tix1 base1 Y w1 (outer_arg Y a) /\ spelled w1 u) /\
    (forall l u args, values tix base l u args -> forall l1, l = map put l1 -> Forall of1 l1 -> exists w1, values tix1 base1 l1 w1 (outer_args l1 args) /\ spelled w1 u).
  Proof.
    apply value_values_ind.
    - intros y Y EY HY. destruct Y as [A|[t| |]]; cbn in EY; try discriminate. destruct (Nat.eqb_spec t x) as [Et|Ht]; [discriminate|]. injection EY as <-.
      exists [inl y]. cbn. split; [exact (value_token tix1 base1 (inl y))|]. constructor; [auto|constructor].
    - intros r u args v Hr Hv IH Hg Y EY HY. destruct Y as [A|[t| |]]; cbn in EY; try discriminate.
      + injection EY as EA. destruct (nv_cases r Hr) as [Hr2|(r1 & Hr1 & Er & Eg)].
        * exfalso. apply (proj2 Hd _ HY). rewrite <- EA. apply lhs2; auto.
        * destruct (IH (r_rhs (cr_rule r1))) as (w1 & H1 & H2); [rewrite Er; reflexivity|apply rhs1; auto|]. exists w1. split; auto. cbn.
          replace A with (r_lhs (cr_rule r1)) by (rewrite <- EA, Er; reflexivity). econstructor; eauto. rewrite <- Eg; [exact Hg|]. exact (proj2 value_fits _ _ _ Hv).
      + destruct (Nat.eqb_spec t x) as [Et|Ht]; [|discriminate]. injection EY as EA. exists [inr v]. cbn. rewrite Et. split; [exact (value_token tix1 base1 (inr v))|].
        rewrite <- (app_nil_r u). constructor; [|constructor]. unfold I. rewrite <- EA. apply (proj1 item_down); [econstructor; eauto|]. cbn. rewrite EA. apply X2.
    - intros l1 E0 _. destruct l1; [|discriminate]. exists []. split; constructor.
    - intros Z l u u' a args _ I1 _ I2 l1 El HF. destruct l1 as [|Y l1]; [discriminate|]. cbn in El. injection El as EZ El. inversion HF as [|? ? H1 H2]; subst.
      destruct (I1 Y eq_refl H1) as (w1 & V1 & S1). destruct (I2 l1 eq_refl H2) as (w2 & V2 & S2). exists (w1 ++ w2). split; [cbn; constructor; auto|apply spelled_app; auto].
  Qed.
  (** and back *)
  Lemma outer_up : (forall Y w1 b, value tix1 base1 Y w1 b -> forall w, spelled w1 w -> exists a, b = outer_arg Y a /\ value tix base (put Y) w a) /\
    (forall l w1 bs, values tix1 base1 l w1 bs -> forall w, spelled w1 w -> exists args, bs = outer_args l args /\ values tix base (map put l) w args).
  Proof.
    apply value_values_ind.
    - intros [t|a] w Hw.
      + inversion Hw as [|u' a' w1' w' Hu Hf|t' w1' w' Ht Hf]; subst. inversion Hf; subst. cbn. destruct (Nat.eqb_spec (tix t) x) as [E0|_]; [contradiction|]. exists (Terminal t). split; auto. constructor.
      + inversion Hw as [|u' a' w1' w' Hu Hf|t' w1' w' Ht Hf]; subst. inversion Hf; subst. cbn. rewrite Nat.eqb_refl, app_nil_r. exists (NonTerminal a). split; auto. apply (proj1 item_up). exact Hu.
    - intros r1 w1 bs v Hr1 _ IH Hg w Hw. destruct (IH w Hw) as (args & -> & Hv). destruct (nv_high r1 Hr1) as (r & Hr & Er & Eg). exists (NonTerminal v). split; auto.
      cbn. change (r_lhs (cr_rule r1)) with (r_lhs (put_rule x X (cr_rule r1))). rewrite <- Er. econstructor; eauto; [rewrite Er; exact Hv|]. rewrite Eg; [exact Hg|]. rewrite Er. exact (proj2 value_fits _ _ _ Hv).
    - intros w Hw. inversion Hw; subst. exists []. split; constructor.
    - intros Y l u u' a args _ I1 _ I2 w Hw. apply spelled_split in Hw as (c & c' & -> & H1 & H2). destruct (I1 _ H1) as (a0 & -> & V1). destruct (I2 _ H2) as (as0 & -> & V2).
      exists (a0 :: as0). split; auto. cbn. constructor; auto.
  Qed.
  Lemma nested_value w v : has_nonterminal (gram s1) (sx_start s1) ->
    (value tix base (NT (sx_start s)) w (NonTerminal v) <-> exists w1, spelled w1 w /\ value tix1 base1 (NT (sx_start s1)) w1 (NonTerminal v)).
  Proof.
    intros H1. destruct Hn as [Es _]. rewrite Es. split.
    - intros H. destruct (proj1 outer_down _ _ _ H (NT (sx_start s1)) eq_refl H1) as (w1 & V & S1). exists w1. auto.
    - intros (w1 & S1 & V). destruct (proj1 outer_up _ _ _ V _ S1) as ([v'|t|l] & E0 & H); cbn in E0; try discriminate. injection E0 as ->. exact H.
  Qed.
  Lemma nv_error_free : error_free s1 -> error_free s2 -> error_free s.
  Proof.
    intros Hf1 Hf2 r Hr Hi. apply (nest_in s1 x s2 s nv_nested), in_app_or in Hr as [Hr|Hr]; [eapply Hf2; eauto|]. apply in_map_iff in Hr as (r1 & <- & Hr1). cbn in Hi. apply in_map_iff in Hi as ([A|[t| |]] & Ey & Hi); cbn in Ey; try discriminate.
    - destruct (Nat.eqb t x); discriminate.
    - eapply Hf1; eauto.
  Qed.
End Proofs.

(** ** What the parser of the nested grammar returns: what the outer parser returns for the sequence in which each item stands as
    the value that the inner parser returns for it *)
Theorem C88_value : forall N T E (nix1 nix2 nix : N -> nat) (tix : T -> nat) e1 e2 e (s1 : syntax N (T + N) E) (s2 s : syntax N T E) x P1 P2 P w v,
  api_syntax nix1 (outer_ix tix x) s1 -> makes e1 s1 P1 [] -> start_defined s1 -> error_free s1 -> ~ cyclic (gram s1) (sx_start s1) ->
  api_syntax nix2 tix s2 -> makes e2 s2 P2 [] -> start_defined s2 -> error_free s2 -> ~ cyclic (gram s2) (sx_start s2) ->
  api_syntax nix tix s -> makes e s P [] -> ~ cyclic (gram s) (sx_start s) ->
  disjoint_grammars (gram s1) (gram s2) -> nested_values tix x s1 s2 s ->
  (returns tix P w (ROk v) <->
   exists w1, spelled tix x (fun u a => returns tix P2 u (ROk a)) w1 w /\ returns (outer_ix tix x) P1 w1 (ROk v)).
Proof.
  intros N T E nix1 nix2 nix tix e1 e2 e s1 s2 s x P1 P2 P w v Ha1 Hm1 Hs1 Hf1 Hc1 Ha2 Hm2 Hs2 Hf2 Hc2 Ha Hmk Hc Hd Hn.
  rewrite (C25_value N T E nix tix e s P w v Ha Hmk (nv_error_free tix x s1 s2 s Hn Hf1 Hf2) Hc), (nested_value tix x s1 s2 s Hn Hd Hs2 w v (start_nt s1 Hs1)).
  assert (HI : forall u a, returns tix P2 u (ROk a) <-> value tix (sx_rules s2) (NT (sx_start s2)) u (NonTerminal a)) by (intros u a; apply (C25_value N T E nix2 tix e2 s2 P2 u a Ha2 Hm2 Hf2 Hc2)).
  assert (Hsp : forall I J : list T -> N -> Prop, (forall u a, I u a -> J u a) -> forall w1 w, spelled tix x I w1 w -> spelled tix x J w1 w) by (intros I J HIJ w1' w' H; induction H; constructor; auto).
  split; intros (w1 & H1 & H2); exists w1; (split; [eapply Hsp; [|exact H1]; intros u a; apply HI|]); apply (C25_value N (T + N) E nix1 _ e1 s1 P1 w1 v Ha1 Hm1 Hf1 Hc1); auto.
Qed.
Print Assumptions C88_value.

(** under the conditions of C78 the parser of the nested grammar can be made, and computes so *)
Theorem C88_made : forall N T E (nix1 nix2 nix : N -> nat) (tix : T -> nat) e1 e2 e (s1 : syntax N (T + N) E) (s2 s : syntax N T E) x P1 P2,
  api_syntax nix1 (outer_ix tix x) s1 -> makes e1 s1 P1 [] -> productive (gram s1) -> start_defined s1 -> error_free s1 -> ~ cyclic (gram s1) (sx_start s1) ->
  api_syntax nix2 tix s2 -> makes e2 s2 P2 [] -> productive (gram s2) -> start_defined s2 -> error_free s2 -> ~ cyclic (gram s2) (sx_start s2) ->
  disjoint_grammars (gram s1) (gram s2) -> never_twice (gram s1) (sx_start s1) x -> ~ der (gram s2) (NT (sx_start s2)) [] ->
  nested_values tix x s1 s2 s -> api_syntax nix tix s -> lr_env_ok e ->
  exists P, makes e s P [] /\ forall w v,
    (returns tix P w (ROk v) <->
     exists w1, spelled tix x (fun u a => returns tix P2 u (ROk a)) w1 w /\ returns (outer_ix tix x) P1 w1 (ROk v)).
Proof.
  intros N T E nix1 nix2 nix tix e1 e2 e s1 s2 s x P1 P2 Ha1 Hm1 Hp1 Hs1 Hf1 Hc1 Ha2 Hm2 Hp2 Hs2 Hf2 Hc2 Hd Htw Hnn Hn Ha He.
  pose proof (nv_nested tix x s1 s2 s Hn) as Hne.
  destruct (C78_nested _ _ _ _ _ _ _ _ _ nix1 (outer_ix tix x) nix2 tix nix tix e1 e2 e s1 s2 s x P1 P2 Ha1 Hm1 Hp1 Hs1 Ha2 Hm2 Hp2 Hs2 Hd Htw Hnn Hc2 Hne Ha He) as [P Hmk].
  exists P. split; auto. intros w v. apply (C88_value N T E nix1 nix2 nix tix e1 e2 e s1 s2 s x P1 P2 P w v); auto.
  destruct Hne as [Es Hp]. rewrite Es. intros (r & Hr & El & Hw). apply (nest_not_cyclic (gram s1) (gram s2) (sx_start s1) x (sx_start s2) Hd (start_nt _ Hs1) (start_nt _ Hs2) Hnn Hc1).
  exists r. split; [eapply Permutation_in; eauto|]. split; auto. eapply rewr_incl; [|exact Hw]. intros r' Hr'. eapply Permutation_in; eauto.
Qed.
Print Assumptions C88_made.

(** ** Example: blocks of expressions; the outer grammar works on the values of the expressions *)
Section Blocks.
  Open Scope Z_scope.
  Definition oblk_add : reducer Z (tok + Z) nat := fun args => match args with [NonTerminal a; Terminal _; NonTerminal b] => GOk (a + b) | _ => GPanic end.
  Definition oblk_mid : reducer Z (tok + Z) nat := fun args => match args with [Terminal _; NonTerminal a; Terminal _] => GOk a | _ => GPanic end.
  Definition oblk_same : reducer Z (tok + Z) nat := fun args => match args with [NonTerminal a] => GOk a | _ => GPanic end.
  Definition oblk_item : reducer Z (tok + Z) nat := fun args => match args with [Terminal (inr a)] => GOk a | _ => GPanic end.
End Blocks.
Definition oblk : syntax Z (tok + Z) nat :=
  mk_syntax [ rule_new_raw 30 [Terminal 20; NonTerminal 31; Terminal 21] oblk_mid; rule_new_raw 31 [NonTerminal 32] oblk_same; rule_new_raw 31 [NonTerminal 31; Terminal 22; NonTerminal 32] oblk_add;
    rule_new_raw 32 [Terminal 23] oblk_item; rule_new_raw 32 [NonTerminal 30] oblk_same ] 30.
Definition P_oblk : parser Z (tok + Z) nat := Eval vm_compute in made_parser (lr1_new env0 1000 oblk).
(** { 1 + 2 ; { 3 * ( 4 - 5 ) ; 6 ! } } with the values of the expressions: { 3 ; { -3 ; 12 } } *)
Definition w_oblk : list (tok + Z) := [inl (sign 20); inr 3%Z; inl (sign 22); inl (sign 20); inr (-3)%Z; inl (sign 22); inr 12%Z; inl (sign 21); inl (sign 21)].
Lemma oblk_same_gram : gram oblk = gram blk.
Proof. reflexivity. Qed.
Ltac fits_tac := repeat match goal with H : Forall2 _ (_ :: _) _ |- _ => inversion H; clear H; subst | H : Forall2 _ [] _ |- _ => inversion H; clear H; subst end;
  repeat match goal with H : fits _ _ ?a |- _ => destruct a; simpl in H; try contradiction; clear H end.
Example C88_example : api_syntax no_z (outer_ix fst 23) oblk /\ makes env0 oblk P_oblk [] /\ productive (gram oblk) /\ start_defined oblk /\ error_free oblk /\ ~ cyclic (gram oblk) (sx_start oblk) /\
  api_syntax no_z fst (table_syntax calc) /\ makes env0 (table_syntax calc) P_calc [] /\ productive (gram (table_syntax calc)) /\ start_defined (table_syntax calc) /\ error_free (table_syntax calc) /\
  ~ cyclic (gram (table_syntax calc)) (sx_start (table_syntax calc)) /\ disjoint_grammars (gram oblk) (gram (table_syntax calc)) /\ never_twice (gram oblk) (sx_start oblk) 23 /\
  ~ der (gram (table_syntax calc)) (NT (sx_start (table_syntax calc))) [] /\
  nested_values fst 23 oblk (table_syntax calc) blk_calc /\ api_syntax no_z fst blk_calc /\ lr_env_ok env0 /\ makes env0 blk_calc P_blk_calc [] /\ ~ cyclic (gram blk_calc) (sx_start blk_calc) /\
  returns fst P_blk_calc w_blk (ROk 12%Z) /\
  spelled fst 23 (fun u a => returns fst P_calc u (ROk a)) w_oblk w_blk /\ returns (outer_ix fst 23) P_oblk w_oblk (ROk 12%Z).
Proof.
  pose proof C78_example as (A1 & A2 & A3 & A4 & A5 & A6 & A7 & A8 & A9 & A10 & A11 & A12 & A13 & A14 & A15 & A16 & A17 & A18 & A19 & A20).
  assert (Hc1 : ~ cyclic (gram oblk) 30).
  { intros (r & Hr & El & Hw). simpl in Hr. repeat destruct Hr as [<-|Hr]; try destruct Hr; simpl in El; try discriminate.
    apply rewr_keeps with (t := TSym 20) in Hw; [|simpl; auto]. destruct Hw as [Hw|[]]. discriminate. }
  split; [raw_rules|]. split; [mk1|]. split; [exact A3|]. split; [exact A4|]. split; [exact A5|]. split; [exact Hc1|].
  split; [exact A6|]. split; [exact A7|]. split; [exact A8|]. split; [exact A9|]. split; [exact A10|]. split; [exact A14|]. split; [exact A11|]. split; [exact A12|]. split; [exact A13|].
  split.
  { split; [reflexivity|]. exists (blk_rules (NonTerminal 0) same). split.
    - repeat constructor; intros args Hf; cbn in Hf; fits_tac; reflexivity.
    - apply Permutation_app_comm. }
  split; [exact A16|]. split; [exact A17|]. split; [exact A18|]. split.
  { intros (r & Hr & El & Hw). simpl in Hr. repeat destruct Hr as [<-|Hr]; try destruct Hr; simpl in El; try discriminate.
    apply rewr_keeps with (t := TSym 20) in Hw; [|simpl; auto]. destruct Hw as [Hw|[]]. discriminate. }
  split; [exact A20|]. split.
  { unfold w_blk, w_oblk. apply spelled_token; [discriminate|].
    apply (spelled_item fst 23 _ [num 1; sign 1; num 2]); [exists 1000; vm_compute; reflexivity|]. apply spelled_token; [discriminate|]. apply spelled_token; [discriminate|].
    apply (spelled_item fst 23 _ [num 3; sign 3; sign 5; num 4; sign 2; num 5; sign 6]); [exists 1000; vm_compute; reflexivity|]. apply spelled_token; [discriminate|].
    apply (spelled_item fst 23 _ [num 6; sign 7]); [exists 1000; vm_compute; reflexivity|]. apply spelled_token; [discriminate|]. apply spelled_token; [discriminate|]. constructor. }
  exists 1000. vm_compute. reflexivity.
Qed.
