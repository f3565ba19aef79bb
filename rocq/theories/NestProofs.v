(** * Grammars inside grammars: no conflicts (proofs) *)
From Coq Require Import List Arith Lia Bool.
From Verif Require Import Lib Grammar LrModel LrSpec LrSets LrNew LrTop ParseModel Trees ParseSpec ParseInv ParseComplete GramFacts ParseTop Lr1Proofs NestSpec.
Import ListNotations.

Section Nest.
  Variables (B1 B2 : list rule) (S1 x X : nat).
  Hypothesis Hdis : disjoint_grammars B1 B2.
  Hypothesis He1 : no_eoi B1.
  Hypothesis He2 : no_eoi B2.
  Hypothesis HS1 : has_nonterminal B1 S1.
  Hypothesis HX2 : has_nonterminal B2 X.
  Hypothesis Hnull : ~ der B2 (NT X) [].
  Hypothesis Hcyc : ~ cyclic B2 X.
  Hypothesis Hp1 : productive B1.
  Hypothesis Htw : never_twice B1 S1 x.
  Let H := B2 ++ map (put_rule x X) B1.
  Variables (ss s1' s2' : nat).
  Hypothesis Hss : ~ In ss (nonterminals H).
  Hypothesis Hs1 : ~ In s1' (nonterminals B1).
  Hypothesis Hs2 : ~ In s2' (nonterminals B2).
  Let n1 := length B1.
  Let n2 := length B2.
  Let rs := augment H S1 ss.
  Let sr := length H.
  Let G1 := augment B1 S1 s1'.
  Let G2 := augment B2 X s2'.
  Notation put := (put_sym x X).
  Notation tx := (TM (TSym x)).

  Definition s1sym (Y : sym) : Prop := Y = NT S1 \/ exists r, In r B1 /\ In Y (r_rhs r).
  Definition s2sym (Y : sym) : Prop := Y = NT X \/ exists r, In r B2 /\ In Y (r_rhs r).

  Lemma sr_eq : sr = n2 + n1.
  Proof. unfold sr, H. rewrite app_length, map_length. auto. Qed.
  Lemma low k : k < n2 -> nth_error rs k = nth_error B2 k /\ nth_error G2 k = nth_error B2 k.
  Proof.
    intros Hk. split; [|unfold G2, augment; apply nth_error_app1; auto]. unfold rs, augment, H. rewrite nth_error_app1 by (rewrite app_length; unfold n2 in Hk; lia). apply nth_error_app1. auto.
  Qed.
  Lemma high j r : nth_error rs (n2 + j) = Some r -> exists r1, nth_error G1 j = Some r1 /\ r_rhs r = map put (r_rhs r1) /\
    ((j < n1 /\ r = put_rule x X r1 /\ In r1 B1) \/ (j = n1 /\ r = mk_rule ss [NT S1] /\ r1 = mk_rule s1' [NT S1])).
  Proof.
    unfold rs, augment, H, G1. rewrite <- app_assoc, nth_error_app2 by (unfold n2; lia). replace (n2 + j - length B2) with j by (unfold n2; lia). intros Hj.
    destruct (Nat.lt_ge_cases j n1) as [Hl|Hl].
    - rewrite nth_error_app1 in Hj by (rewrite map_length; auto). rewrite nth_error_map in Hj. destruct (nth_error B1 j) as [r1|] eqn:E1; [|discriminate]. injection Hj as <-.
      exists r1. unfold augment. rewrite nth_error_app1 by auto. split; auto. split; auto. left. split; auto. split; auto. eapply nth_error_In; eauto.
    - rewrite nth_error_app2 in Hj by (rewrite map_length; auto). rewrite map_length in Hj. destruct (j - length B1) as [|m] eqn:Em; [|destruct m; discriminate]. injection Hj as <-.
      assert (j = n1) by (unfold n1 in *; lia). subst j. exists (mk_rule s1' [NT S1]). split; [apply augment_start|]. split; auto.
  Qed.
  Lemma high_in r1 : In r1 B1 -> In (put_rule x X r1) rs.
  Proof. intros Hr. unfold rs, augment, H. apply in_or_app. left. apply in_or_app. right. apply in_map. auto. Qed.
  Lemma X_B1 : ~ has_nonterminal B1 X.
  Proof. intros A. apply (proj2 Hdis _ A). auto. Qed.
  Lemma s1_nt A : s1sym (NT A) -> has_nonterminal B1 A.
  Proof. intros [E|(r & Hr & Hi)]; [injection E as ->; auto|exists r; auto]. Qed.
  Lemma s2_nt A : s2sym (NT A) -> has_nonterminal B2 A.
  Proof. intros [E|(r & Hr & Hi)]; [injection E as ->; auto|exists r; auto]. Qed.
  Lemma s1_tm t : s1sym (TM t) -> has_terminal B1 t.
  Proof. intros [E|(r & Hr & Hi)]; [discriminate|exists r; auto]. Qed.
  Lemma s2_tm t : s2sym (TM t) -> has_terminal B2 t.
  Proof. intros [E|(r & Hr & Hi)]; [discriminate|exists r; auto]. Qed.
  Lemma t2_eoi : ~ has_terminal B2 TEoi.
  Proof. intros (r & Hr & Hi). eapply He2; eauto. Qed.
  Lemma t1_eoi : ~ has_terminal B1 TEoi.
  Proof. intros (r & Hr & Hi). eapply He1; eauto. Qed.
  Lemma put_x : put tx = NT X.
  Proof. cbn. rewrite Nat.eqb_refl. auto. Qed.
  Lemma put_not Y : Y <> tx -> put Y = Y.
  Proof. destruct Y as [A|[t| |]]; auto. intros Hn. cbn. destruct (Nat.eqb_spec t x) as [->|]; congruence. Qed.
  Lemma put_X Y : s1sym Y -> put Y = NT X -> Y = tx.
  Proof.
    intros HY E. destruct Y as [A|[t| |]]; cbn in E; try discriminate.
    - injection E as ->. apply s1_nt in HY. destruct (X_B1 HY).
    - destruct (Nat.eqb_spec t x) as [->|]; auto. discriminate.
  Qed.
  Lemma put_dec Y : {Y = tx} + {Y <> tx}.
  Proof. destruct Y as [A|[t| |]]; try (right; discriminate). destruct (Nat.eq_dec t x) as [->|]; [left; auto|right; congruence]. Qed.
  Lemma put_inj Y Z : s1sym Y -> s1sym Z -> put Y = put Z -> Y = Z.
  Proof.
    intros HY HZ E. destruct (put_dec Y) as [->|NY].
    - rewrite put_x in E. symmetry in E. apply put_X in E; auto.
    - destruct (put_dec Z) as [->|NZ]; [rewrite put_x in E; apply put_X; auto|]. rewrite !put_not in E; auto.
  Qed.
  Lemma puts_inj l : forall l', Forall s1sym l -> Forall s1sym l' -> map put l = map put l' -> l = l'.
  Proof.
    induction l as [|Y l IH]; intros [|Z l'] HY HZ E; try discriminate; auto. cbn [map] in E. injection E as E1 E2. inversion HY; inversion HZ; subst. f_equal; [apply put_inj; auto|auto].
  Qed.
  Lemma put_s2 Y : s1sym Y -> s2sym (put Y) -> Y = tx.
  Proof.
    intros HY H2. destruct (put_dec Y) as [->|NY]; auto. rewrite put_not in H2 by auto. exfalso. destruct Y as [A|t].
    - apply s1_nt in HY. apply s2_nt in H2. eapply (proj2 Hdis); eauto.
    - apply s1_tm in HY. apply s2_tm in H2. eapply (proj1 Hdis); eauto.
  Qed.
  Lemma H_nt A : has_nonterminal B1 A \/ has_nonterminal B2 A -> A <> ss.
  Proof.
    intros HA ->. apply Hss, nonterminals_spec. destruct HA as [(r & Hr & HA)|(r & Hr & HA)].
    - exists (put_rule x X r). split; [apply in_or_app; right; apply in_map; auto|]. destruct HA as [HA|HA]; [left; auto|right]. cbn. apply in_map_iff. exists (NT ss). auto.
    - exists r. split; [apply in_or_app; auto|auto].
  Qed.
  Lemma rs_cases r : In r rs -> In r B2 \/ (exists r1, In r1 B1 /\ r = put_rule x X r1) \/ r = mk_rule ss [NT S1].
  Proof.
    unfold rs, augment, H. rewrite !in_app_iff, in_map_iff. intros [[Hr|(r1 & <- & Hr)]|[<-|[]]]; eauto.
  Qed.
  Lemma s2rule r : In r rs -> s2sym (NT (r_lhs r)) -> In r B2.
  Proof.
    intros Hr H2. apply s2_nt in H2. apply rs_cases in Hr as [Hr|[(r1 & Hr1 & ->)| ->]]; auto; exfalso.
    - cbn in H2. eapply (proj2 Hdis); [|exact H2]. exists r1. auto.
    - cbn in H2. eapply H_nt; [right; exact H2|auto].
  Qed.
  Lemma s1rule r : In r rs -> s1sym (NT (r_lhs r)) -> exists r1, In r1 B1 /\ r = put_rule x X r1.
  Proof.
    intros Hr H1. apply s1_nt in H1. apply rs_cases in Hr as [Hr|[Hr| ->]]; auto; exfalso.
    - eapply (proj2 Hdis); [exact H1|]. exists r. auto.
    - cbn in H1. eapply H_nt; [left; exact H1|auto].
  Qed.
  Lemma s2_rhs r : In r B2 -> Forall s2sym (r_rhs r).
  Proof. intros Hr. apply Forall_forall. intros Y HY. right. eauto. Qed.
  Lemma s1_rhs r : In r B1 -> Forall s1sym (r_rhs r).
  Proof. intros Hr. apply Forall_forall. intros Y HY. right. eauto. Qed.
  Lemma G1_rhs j r1 : nth_error G1 j = Some r1 -> Forall s1sym (r_rhs r1).
  Proof.
    intros Hj. apply nth_error_In in Hj. unfold G1, augment in Hj. apply in_app_or in Hj as [Hj|[<-|[]]]; [apply s1_rhs; auto|]. repeat constructor.
  Qed.

  (** ** Derivations *)
  Lemma der_s2 : (forall Y w, der rs Y w -> s2sym Y -> der B2 Y w) /\ (forall l w, ders rs l w -> Forall s2sym l -> ders B2 l w).
  Proof.
    apply der_ders_ind.
    - constructor.
    - intros r w Hr _ IH HY. pose proof (s2rule r Hr HY) as H2. constructor; auto. apply IH, s2_rhs; auto.
    - constructor.
    - intros Y l u v _ IH1 _ IH2 Hl. inversion Hl; subst. constructor; auto.
  Qed.
  Lemma B2_rs r : In r B2 -> In r rs.
  Proof. intros Hr. unfold rs, augment, H. apply in_or_app. left. apply in_or_app. auto. Qed.
  Lemma filled_app a b : filled B2 x X a b -> forall a' b', filled B2 x X a' b' -> filled B2 x X (a ++ a') (b ++ b').
  Proof. induction 1 as [|u w1 w Hu Hf IH|t w1 w Ht Hf IH]; intros a' b' H'; auto; [rewrite <- app_assoc; constructor; auto|constructor; auto]. Qed.
  Lemma der_s1 : (forall Y w, der rs Y w -> forall Y1, Y = put Y1 -> s1sym Y1 -> exists w1, der B1 Y1 w1 /\ filled B2 x X w1 w) /\
    (forall l w, ders rs l w -> forall l1, l = map put l1 -> Forall s1sym l1 -> exists w1, ders B1 l1 w1 /\ filled B2 x X w1 w).
  Proof.
    apply der_ders_ind.
    - intros t Y1 E HY. assert (Hn : Y1 <> tx) by (intros ->; rewrite put_x in E; discriminate). rewrite put_not in E by auto. subst Y1. exists [t]. split; [constructor|]. constructor; [congruence|constructor].
    - intros r w Hr Hd IH Y1 E HY. destruct (put_dec Y1) as [->|Hn].
      + rewrite put_x in E. exists [TSym x]. split; [constructor|]. rewrite <- (app_nil_r w). constructor; [|constructor]. apply (proj1 der_s2); [|left; auto]. rewrite <- E. constructor; auto.
      + rewrite put_not in E by auto. subst Y1. destruct (s1rule r Hr HY) as (r1 & Hr1 & ->). destruct (IH (r_rhs r1) eq_refl (s1_rhs _ Hr1)) as (w1 & D & F). exists w1. split; auto. cbn [put_rule r_lhs]. constructor; auto.
    - intros l1 E _. destruct l1; [|discriminate]. exists []. split; constructor.
    - intros Y l u v _ IH1 _ IH2 l1 E Hl. destruct l1 as [|Y1 l1]; [discriminate|]. cbn [map] in E. injection E as E1 E2. inversion Hl; subst. destruct (IH1 Y1 eq_refl) as (w1 & D1 & F1); auto. destruct (IH2 l1 eq_refl) as (w2 & D2 & F2); auto.
      exists (w1 ++ w2). split; [constructor; auto|apply filled_app; auto].
  Qed.
  Lemma filled_split a : forall b w, filled B2 x X (a ++ b) w -> exists u v, w = u ++ v /\ filled B2 x X a u /\ filled B2 x X b v.
  Proof.
    induction a as [|t a IH]; intros b w Hf; cbn [app] in Hf.
    - exists [], w. repeat split; auto. constructor.
    - inversion Hf as [|u w1 w' Hu Hf'|t' w1 w' Ht Hf']; subst.
      + destruct (IH _ _ Hf') as (u1 & v1 & -> & F1 & F2). exists (u ++ u1), v1. rewrite app_assoc. repeat split; auto. constructor; auto.
      + destruct (IH _ _ Hf') as (u1 & v1 & -> & F1 & F2). exists (t :: u1), v1. repeat split; auto. constructor; auto.
  Qed.
  Lemma der_fill : (forall Y w1, der B1 Y w1 -> forall w, filled B2 x X w1 w -> der rs (put Y) w) /\ (forall l w1, ders B1 l w1 -> forall w, filled B2 x X w1 w -> ders rs (map put l) w).
  Proof.
    apply der_ders_ind.
    - intros t w Hf. inversion Hf as [|u w1 w' Hu Hf'|t' w1 w' Ht Hf']; subst; inversion Hf'; subst.
      + rewrite app_nil_r, put_x. apply (der_incl B2 rs); [exact B2_rs|auto].
      + rewrite put_not by congruence. constructor.
    - intros r w1 Hr _ IH w Hf. cbn [put_sym]. change (r_lhs r) with (r_lhs (put_rule x X r)). constructor; [apply high_in; auto|]. apply IH. auto.
    - intros w Hf. inversion Hf; subst. constructor.
    - intros Y l u v _ IH1 _ IH2 w Hf. apply filled_split in Hf as (w1 & w2 & -> & F1 & F2). cbn [map]. constructor; auto.
  Qed.
  Lemma filled_nil_inv w1 : filled B2 x X w1 [] -> w1 = [].
  Proof.
    intros Hf. inversion Hf as [|u w0 w Hu Hf' E1 E2|]; auto. apply app_eq_nil in E2 as [-> _]. destruct (Hnull Hu).
  Qed.
  Lemma null1 Y : s1sym Y -> der rs (put Y) [] -> der G1 Y [].
  Proof.
    intros HY Hd. destruct (proj1 der_s1 _ _ Hd Y eq_refl HY) as (w1 & D & F). apply filled_nil_inv in F. subst w1. apply (der_incl B1 G1); auto. apply aug_incl.
  Qed.

  (** ** First terminals *)
  Lemma firstl_s2 l t : firstl rs l t -> Forall s2sym l -> has_terminal B2 t /\ firstl G2 l t.
  Proof.
    induction 1 as [t l|r l t Hr Hf IH|Y l t Hd Hf IH]; intros Hl; inversion Hl as [|? ? H1 H2]; subst.
    - split; [apply s2_tm; auto|constructor].
    - pose proof (s2rule r Hr H1) as Hr2. destruct (IH (s2_rhs _ Hr2)) as [A B]. split; auto. constructor; auto. apply (aug_incl B2 X s2'). auto.
    - destruct (IH H2) as [A B]. split; auto. apply fl_skip; auto. apply (der_incl B2 G2); [apply aug_incl|]. apply (proj1 der_s2); auto.
  Qed.
  Definition rel1 (t t1 : term) : Prop := (t1 <> TSym x /\ t = t1 /\ (t1 = TEoi \/ has_terminal B1 t1)) \/ (t1 = TSym x /\ has_terminal B2 t).
  Lemma firstl_s1 l t : firstl rs l t -> forall l1, l = map put l1 -> Forall s1sym l1 -> exists t1, firstl G1 l1 t1 /\ rel1 t t1.
  Proof.
    induction 1 as [t l|r l t Hr Hf IH|Y l t Hd Hf IH]; intros l1 E Hl; destruct l1 as [|Y1 l1]; try discriminate; cbn [map] in E; injection E as E1 E2; inversion Hl as [|? ? H1 H2]; subst.
    - assert (Hn : Y1 <> tx) by (intros ->; rewrite put_x in E1; discriminate). rewrite put_not in E1 by auto. subst Y1. exists t. split; [constructor|]. left. split; [congruence|]. split; auto. right. apply s1_tm; auto.
    - destruct (put_dec Y1) as [->|Hn].
      + exists (TSym x). split; [constructor|]. right. split; auto. rewrite put_x in E1. injection E1 as E1. assert (Hr2 : In r B2) by (apply s2rule; auto; left; congruence).
        apply (firstl_s2 _ _ Hf (s2_rhs _ Hr2)).
      + rewrite put_not in E1 by auto. subst Y1. destruct (s1rule r Hr H1) as (r1 & Hr1 & ->). destruct (IH (r_rhs r1) eq_refl (s1_rhs _ Hr1)) as (t1 & F & R). exists t1. split; auto. cbn [put_rule r_lhs]. constructor; auto. apply (aug_incl B1 S1 s1'). auto.
    - destruct (IH l1 eq_refl H2) as (t1 & F & R). exists t1. split; auto. apply fl_skip; auto. apply null1; auto.
  Qed.
  Lemma skipn_map' {A B} (f : A -> B) n (l : list A) : skipn n (map f l) = map f (skipn n l).
  Proof. revert l. induction n as [|n IH]; intros [|y l]; cbn; auto. Qed.
  Lemma Forall_skipn {A} (Q : A -> Prop) n l : Forall Q l -> Forall Q (skipn n l).
  Proof. intros HQ. rewrite <- (firstn_skipn n l) in HQ. apply Forall_app in HQ. tauto. Qed.
  Lemma firsts_s1 l1 la la1 t : Forall s1sym l1 -> rel1 la la1 -> firsts rs (map put l1 ++ [TM la]) t -> exists t1, firsts G1 (l1 ++ [TM la1]) t1 /\ rel1 t t1.
  Proof.
    intros Hl Hr Hf. apply firsts_firstl in Hf. apply firstl_app in Hf as [Hf|[Hn Hf]].
    - destruct (firstl_s1 _ _ Hf l1 eq_refl Hl) as (t1 & F & R). exists t1. split; auto. apply firsts_firstl, firstl_app. auto.
    - exists la1. split.
      + apply firsts_firstl, firstl_app. right. split; [|constructor]. intros Y HY. rewrite Forall_forall in Hl. apply null1; auto. apply Hn. apply in_map. auto.
      + inversion Hf; subst; auto. match goal with A : firstl _ [] _ |- _ => inversion A end.
  Qed.
  Lemma firsts_s2 l la t : Forall s2sym l -> firsts rs (l ++ [TM la]) t -> (has_terminal B2 t /\ forall lb, firsts G2 (l ++ [TM lb]) t) \/ (t = la /\ forall lb, firsts G2 (l ++ [TM lb]) lb).
  Proof.
    intros Hl Hf. apply firsts_firstl in Hf. apply firstl_app in Hf as [Hf|[Hn Hf]].
    - destruct (firstl_s2 _ _ Hf Hl) as [A B]. left. split; auto. intros lb. apply firsts_firstl, firstl_app. auto.
    - right. split; [inversion Hf; subst; auto; match goal with A : firstl _ [] _ |- _ => inversion A end|]. intros lb. apply firsts_firstl, firstl_app. right. split; [|constructor].
      intros Y HY. apply (der_incl B2 G2); [apply aug_incl|]. rewrite Forall_forall in Hl. apply (proj1 der_s2); auto.
  Qed.

  (** ** Items of the outer rules *)
  Lemma embed1 g it : valid rs sr g it -> forall j, i_rule it = n2 + j ->
    exists g1 la1, g = map put g1 /\ Forall s1sym g1 /\ valid G1 n1 g1 (mk_item j (i_pos it) la1) /\ rel1 (i_la it) la1.
  Proof.
    induction 1 as [|g k q b r Y Hv IH Hr HY|g k q b r A k' r' t Hv IH Hr HA Hr' Hl Hf]; cbn [i_rule i_pos i_la] in *; intros j Ej.
    - assert (j = n1) by (rewrite sr_eq in Ej; lia). subst j. exists [], TEoi. repeat split; try constructor. repeat split; auto. discriminate.
    - subst k. destruct (IH j eq_refl) as (g1 & la1 & -> & Hg & Hv1 & Hla). destruct (high j r Hr) as (r1 & Hr1 & Er & _). rewrite Er, nth_error_map in HY. destruct (nth_error (r_rhs r1) q) as [Y1|] eqn:EY; [|discriminate]. injection HY as <-.
      exists (g1 ++ [Y1]), la1. rewrite map_app. split; auto. split; [apply Forall_app; split; auto; constructor; auto; pose proof (G1_rhs _ _ Hr1) as HF; rewrite Forall_forall in HF; apply HF; eapply nth_error_In; eauto|]. split; auto. eapply valid_goto; eauto.
    - subst k'. destruct (high j r' Hr') as (r1' & Hr1' & Er' & Hc').
      destruct (Nat.lt_ge_cases k n2) as [Hk|Hk].
      + exfalso. destruct (low k Hk) as [El _]. rewrite El in Hr. apply nth_error_In in Hr, HA. assert (HB2 : has_nonterminal B2 A) by (exists r; auto).
        destruct Hc' as [(_ & -> & Hin)|(_ & -> & _)]; cbn in Hl; subst A.
        * eapply (proj2 Hdis); [|exact HB2]. exists r1'. auto.
        * eapply H_nt; [right; exact HB2|auto].
      + replace k with (n2 + (k - n2)) in Hr, IH by lia. destruct (IH (k - n2) eq_refl) as (g1 & la1 & -> & Hg & Hv1 & Hla). destruct (high _ r Hr) as (r1 & Hr1 & Er & _).
        rewrite Er, nth_error_map in HA. destruct (nth_error (r_rhs r1) q) as [Y1|] eqn:EY; [|discriminate]. injection HA as HA.
        assert (HY1 : s1sym Y1). { pose proof (G1_rhs _ _ Hr1) as HF. rewrite Forall_forall in HF. apply HF. eapply nth_error_In; eauto. }
        destruct Hc' as [(_ & -> & Hin)|(_ & -> & _)]; cbn [put_rule r_lhs] in Hl.
        * assert (Y1 = NT A). { destruct (put_dec Y1) as [->|Hn]; [|rewrite put_not in HA; auto]. rewrite put_x in HA. injection HA as <-. exfalso. apply X_B1. exists r1'. auto. } subst Y1.
          rewrite Er, skipn_map' in Hf. assert (HFs : Forall s1sym (skipn (S q) (r_rhs r1))) by (apply Forall_skipn; eapply G1_rhs; eauto).
          destruct (firsts_s1 _ _ _ _ HFs Hla Hf) as (t1 & F & R). exists g1, t1. split; auto. split; auto. split; auto. eapply valid_closure; eauto.
        * exfalso. assert (HAs : has_nonterminal B1 A \/ has_nonterminal B2 A).
          { destruct (put_dec Y1) as [->|Hn]; [rewrite put_x in HA; injection HA as <-; auto|]. rewrite put_not in HA by auto. subst Y1. left. apply s1_nt. auto. }
          eapply H_nt; eauto.
  Qed.

  (** ** Two [x] in a row *)
  Lemma rewr_in (l l' : list sym) : rewr G1 l l' -> Forall s1sym l -> Forall s1sym l'.
  Proof.
    induction 1 as [l|l1 r l2 l' Hr Hw IH]; intros Hl; auto. apply IH. apply Forall_app in Hl as [A B]. inversion B; subst. apply Forall_app. split; auto. apply Forall_app. split; auto.
    unfold G1, augment in Hr. apply in_app_or in Hr as [Hr|[<-|[]]]; [apply s1_rhs; auto|repeat constructor].
  Qed.
  Lemma not_twice g j p la r : valid G1 n1 (g ++ [tx]) (mk_item j p la) -> nth_error G1 j = Some r -> firsts G1 (skipn p (r_rhs r) ++ [TM la]) (TSym x) -> False.
  Proof.
    intros Hv Hr Hf. destruct (valid_rewr B1 S1 s1' Hs1 He1 _ _ Hv) as (r' & Er' & z & Z1 & Z2 & Z3 & Z4). cbn [i_rule i_pos i_la] in *. fold G1 in Er', Z1, Z4. assert (r' = r) by congruence. subst r'.
    destruct Z4 as [Z4|(r0 & A1 & A2 & A3)].
    - pose proof (start_items B1 S1 s1' Hs1 _ _ Hv Z4) as Eg. cbn [i_pos] in Eg. assert (Hin : In tx (firstn p [NT S1])) by (rewrite <- Eg; apply in_or_app; right; simpl; auto).
      assert (Hin' : In tx [NT S1]) by (rewrite <- (firstn_skipn p [NT S1]); apply in_or_app; auto). destruct Hin' as [Hin'|[]]. discriminate.
    - assert (HF : Forall s1sym ((g ++ [tx]) ++ skipn p (r_rhs r) ++ z)) by (eapply rewr_in; [exact A3|apply s1_rhs; auto]).
      assert (HS : exists w, der B1 (NT S1) w). { destruct (ders_all B1 (r_rhs r0)) as [w Hw]; [intros Y HY; eapply Hp1; eauto|]. exists w. rewrite <- A2. constructor; auto. }
      assert (Hok : forall l, Forall s1sym l -> Forall (okX B1 s1') l).
      { intros l. apply Forall_impl. intros Y HY. split.
        - destruct HY as [->|(r1 & B & C)]; [auto|eapply Hp1; eauto].
        - intros ->. apply s1_nt in HY. apply Hs1, nonterminals_spec. exact HY. }
      apply Forall_app in HF as [HFg HF]. apply Forall_app in HFg as [HFg _]. apply Forall_app in HF as [HF1 HF2].
      assert (Hfz : firsts G1 ((skipn p (r_rhs r) ++ z) ++ [TM TEoi]) (TSym x)).
      { apply firsts_firstl. apply firsts_firstl in Hf, Z1. rewrite <- app_assoc. apply firstl_app. apply firstl_app in Hf as [Hf|[Hf1 Hf2]]; auto. right. split; auto.
        inversion Hf2; subst; auto. match goal with A : firstl _ [] _ |- _ => inversion A end. }
      destruct (firsts_word B1 S1 s1' Hs1 _ _ _ Hp1 Hfz) as (w & Hw & Ew); [apply Hok, Forall_app; auto|]. destruct w as [|t w]; [discriminate|]. cbn in Ew. subst t.
      destruct (ok_ders B1 s1' g (Hok _ HFg)) as [u Hu]. apply (Htw u w). rewrite <- A2.
      assert (Hall : ders B1 (r_rhs r0) (u ++ TSym x :: TSym x :: w)).
      { apply (proj2 (der_aug0 B1 S1 s1' Hs1)); [|apply (ss_rhs B1 s1' Hs1); auto]. eapply rewr_ders; [exact A3|]. apply (der_incl B1 G1 (aug_incl B1 S1 s1')). rewrite <- app_assoc. apply ders_app; auto. change (TSym x :: TSym x :: w) with ([TSym x] ++ TSym x :: w). apply ders_app; [|exact Hw]. apply ders_one. constructor. }
      constructor; auto.
  Qed.
  Lemma no_wants2 g : wants G1 n1 (g ++ [tx]) tx -> False.
  Proof.
    intros (j & p & la & r & Hv & Hr & Hp). eapply not_twice; eauto. apply firsts_firstl. rewrite (skipn_nth_cons _ _ _ Hp). constructor.
  Qed.
  Lemma no_complete2 g j : complete G1 n1 (g ++ [tx]) j (TSym x) -> False.
  Proof.
    intros (r & Hr & Hv). eapply not_twice; eauto. rewrite skipn_all. exists []. constructor.
  Qed.
  (** a row of [x] that comes after a place where [x] can be *)
  Lemma row b c it : Forall (fun Y => Y = tx) c -> valid G1 n1 (b ++ c) it -> c = [] \/ c = [tx].
  Proof.
    intros Hc Hv. destruct c as [|Y [|Z c]]; auto; inversion Hc as [|? ? -> Hc']; subst; auto. inversion Hc' as [|? ? -> _]; subst. exfalso. apply (no_wants2 b).
    apply (viable_wants B1 S1 s1' c (b ++ [tx]) tx it). rewrite <- app_assoc. exact Hv.
  Qed.

  (** ** Items of the inner rules *)
  Definition la2_ok (la la2 : term) : Prop := (la2 = la /\ has_terminal B2 la) \/ (la2 = TEoi /\ (la = TEoi \/ has_terminal B1 la)).
  Lemma embed2 g it : valid rs sr g it -> i_rule it < n2 ->
    exists b d la2, g = map put b ++ d /\ Forall s1sym b /\ wants G1 n1 b tx /\ Forall s2sym d /\ valid G2 n2 d (mk_item (i_rule it) (i_pos it) la2) /\ la2_ok (i_la it) la2.
  Proof.
    induction 1 as [|g k q b r Y Hv IH Hr HY|g k q b r A k' r' t Hv IH Hr HA Hr' Hl Hf]; cbn [i_rule i_pos i_la] in *; intros Hk.
    - rewrite sr_eq in Hk. lia.
    - destruct (IH Hk) as (b1 & d & la2 & -> & H1 & H2 & H3 & H4 & H5). destruct (low k Hk) as [El E2]. rewrite El in Hr. exists b1, (d ++ [Y]), la2. rewrite app_assoc. split; auto. split; auto. split; auto.
      split; [apply Forall_app; split; auto; constructor; auto; right; exists r; split; eapply nth_error_In; eauto|]. split; auto. eapply valid_goto; eauto. rewrite E2. exact Hr.
    - destruct (low k' Hk) as [El' E2']. rewrite El' in Hr'. destruct (Nat.lt_ge_cases k n2) as [Hk'|Hk'].
      + destruct (IH Hk') as (b1 & d & la2 & -> & H1 & H2 & H3 & H4 & H5). destruct (low k Hk') as [El E2]. rewrite El in Hr.
        assert (HFs : Forall s2sym (skipn (S q) (r_rhs r))) by (apply Forall_skipn, s2_rhs; eapply nth_error_In; eauto).
        destruct (firsts_s2 _ _ _ HFs Hf) as [[T2 F]|[-> F]].
        * exists b1, d, t. split; auto. split; auto. split; auto. split; auto. split; [|left; auto]. eapply valid_closure; try exact H4; try exact HA; [rewrite E2; exact Hr|rewrite E2'; exact Hr'|auto|apply F].
        * exists b1, d, la2. split; auto. split; auto. split; auto. split; auto. split; [|auto]. eapply valid_closure; try exact H4; try exact HA; [rewrite E2; exact Hr|rewrite E2'; exact Hr'|auto|apply F].
      + replace k with (n2 + (k - n2)) in Hr, Hv by lia. destruct (embed1 _ _ Hv (k - n2) eq_refl) as (b1 & lb1 & -> & Hb & Hv1 & Hla). cbn [i_pos i_la] in *. destruct (high _ r Hr) as (r1 & Hr1 & Er & _).
        rewrite Er, nth_error_map in HA. destruct (nth_error (r_rhs r1) q) as [Y1|] eqn:EY; [|discriminate]. injection HA as HA.
        assert (HY1 : s1sym Y1). { pose proof (G1_rhs _ _ Hr1) as HF. rewrite Forall_forall in HF. apply HF. eapply nth_error_In; eauto. }
        assert (Y1 = tx /\ A = X) as [-> ->].
        { destruct (put_dec Y1) as [->|Hn]; [rewrite put_x in HA; injection HA as <-; auto|]. exfalso. rewrite put_not in HA by auto. subst Y1. apply s1_nt in HY1. eapply (proj2 Hdis); [exact HY1|]. exists r'. split; [eapply nth_error_In; eauto|auto]. }
        rewrite Er, skipn_map' in Hf. assert (HFs : Forall s1sym (skipn (S q) (r_rhs r1))) by (apply Forall_skipn; eapply G1_rhs; eauto).
        destruct (firsts_s1 _ _ _ _ HFs Hla Hf) as (t1 & F & R). exists b1, [], TEoi. rewrite app_nil_r. split; auto. split; auto. split; [exists (k - n2), q, lb1, r1; auto|]. split; auto. split.
        * eapply (valid_closure G2 n2 [] n2 0 TEoi (mk_rule s2' [NT X]) X); [constructor|apply augment_start|reflexivity|rewrite E2'; exact Hr'|auto|]. cbn [r_rhs skipn app]. exists []. constructor.
        * right. split; auto. destruct R as [(R1 & -> & R2)|[-> R2]]; auto. exfalso. eapply (not_twice b1 (k - n2) (S q) lb1 r1); eauto. eapply valid_goto; eauto.
  Qed.

  Lemma x_row c : Forall s1sym c -> Forall s2sym (map put c) -> Forall (fun Y => Y = tx) c.
  Proof. induction c as [|Y c IH]; intros A B; constructor; inversion A; inversion B; subst; auto. apply put_s2; auto. Qed.
  Lemma app_eq {A} (a : list A) : forall b a' b', a ++ b = a' ++ b' -> (exists c, a' = a ++ c /\ b = c ++ b') \/ (exists c, a = a' ++ c /\ b' = c ++ b).
  Proof.
    induction a as [|y a IH]; intros b a' b' E; cbn in E; [left; exists a'; auto|]. destruct a' as [|y' a']; cbn in E; [right; exists (y :: a); auto|]. injection E as -> E.
    destruct (IH _ _ _ E) as [(c & -> & ->)|(c & -> & ->)]; [left|right]; exists c; auto.
  Qed.
  Lemma map_app_inv {A B} (f : A -> B) l : forall a b, map f l = a ++ b -> exists l1 l2, l = l1 ++ l2 /\ map f l1 = a /\ map f l2 = b.
  Proof.
    induction l as [|y l IH]; intros [|z a] b E; cbn in E; try discriminate.
    - exists [], []. auto.
    - exists [], (y :: l). auto.
    - injection E as <- E. destruct (IH _ _ E) as (l1 & l2 & -> & <- & <-). exists (y :: l1), l2. auto.
  Qed.
  (** where the inner part begins *)
  Lemma split_case b d b' d' : Forall s1sym b -> Forall s1sym b' -> Forall s2sym d -> wants G1 n1 b' tx -> (exists c, map put b' = map put b ++ c /\ d = c ++ d') -> b = b' /\ d = d'.
  Proof.
    intros Hb Hb' Hd Hw (c & E1 & ->). apply map_app_inv in E1 as (b0 & c0 & -> & E1 & <-). apply Forall_app in Hb' as [Hb0 Hc0]. apply puts_inj in E1; auto. subst b0. apply Forall_app in Hd as [Hd _].
    pose proof (x_row _ Hc0 Hd) as Hrow. apply wants_valid in Hw as [it Hv]. rewrite <- app_assoc in Hv.
    destruct (row b (c0 ++ [tx]) it) as [E|E]; auto; [apply Forall_app; auto|destruct c0; discriminate|]. destruct c0 as [|? [|? ?]]; try discriminate. rewrite app_nil_r. auto.
  Qed.
  Lemma split_eq b d b' d' : Forall s1sym b -> Forall s1sym b' -> Forall s2sym d -> Forall s2sym d' -> wants G1 n1 b tx -> wants G1 n1 b' tx -> map put b ++ d = map put b' ++ d' -> b = b' /\ d = d'.
  Proof.
    intros Hb Hb' Hd Hd' Hw Hw' E. apply app_eq in E as [E|E]; [eapply split_case; eauto|]. destruct (split_case b' d' b d) as [-> ->]; auto.
  Qed.
  Lemma split_outer b d g1 it : Forall s1sym b -> Forall s1sym g1 -> Forall s2sym d -> valid G1 n1 g1 it -> map put b ++ d = map put g1 -> (d = [] /\ g1 = b) \/ (d = [NT X] /\ g1 = b ++ [tx]).
  Proof.
    intros Hb Hg Hd Hv E. symmetry in E. apply map_app_inv in E as (b0 & c & -> & E1 & <-). apply Forall_app in Hg as [Hb0 Hc]. apply puts_inj in E1; auto. subst b0. pose proof (x_row _ Hc Hd) as Hrow.
    destruct (row b c it Hrow Hv) as [->| ->]; [left; rewrite app_nil_r; auto|right]. cbn [map]. rewrite put_x. auto.
  Qed.

  (** nothing of the inner grammar ends where the outer one can go on, other than after [X] *)
  Lemma no_end0 k : complete G2 n2 [] k TEoi -> k <> n2 -> False.
  Proof.
    intros (r & Hr & Hv) Hk. destruct (valid_rewr B2 X s2' Hs2 He2 _ _ Hv) as (r' & Er' & z & Z1 & Z2 & Z3 & Z4). cbn [i_rule i_pos i_la app] in *. fold G2 in Er', Z1, Z4. assert (r' = r) by congruence. subst r'.
    destruct Z4 as [Z4|(r0 & A1 & A2 & A3)]; [contradiction|]. rewrite skipn_all in A3. cbn [app] in A3. apply Hnull. rewrite <- A2. constructor; auto.
    apply (proj2 (der_aug0 B2 X s2' Hs2)); [|apply (ss_rhs B2 s2' Hs2); auto]. eapply rewr_ders; [exact A3|]. apply firsts_firstl in Z1. apply firstl_app in Z1 as [Z1|[Z1 _]].
    - exfalso. apply Z2. exact (firstl_eoi B2 X s2' He2 _ _ Z1 eq_refl).
    - apply ders_all_null. exact Z1.
  Qed.
  Lemma no_end1 k : complete G2 n2 [NT X] k TEoi -> k <> n2 -> False.
  Proof.
    intros Hc Hk. apply Hcyc. apply (early_cyclic B2 X s2' Hs2 He2). exists [NT X], k. split; auto. split; auto. exists (mk_rule s2' [NT X]). split; [apply augment_start|].
    apply (valid_goto G2 n2 [] n2 0 TEoi (mk_rule s2' [NT X])); [constructor|apply augment_start|reflexivity].
  Qed.

  Hypothesis cf1 : conflict_free G1 n1.
  Hypothesis cf2 : conflict_free G2 n2.

  Lemma high_wants g k q b r t : valid rs sr g (mk_item k q b) -> n2 <= k -> nth_error rs k = Some r -> nth_error (r_rhs r) q = Some (TM t) ->
    exists g1, g = map put g1 /\ Forall s1sym g1 /\ wants G1 n1 g1 (TM t) /\ has_terminal B1 t /\ t <> TSym x.
  Proof.
    intros Hv Hk Hr Hq. replace k with (n2 + (k - n2)) in Hr, Hv by lia. destruct (embed1 _ _ Hv (k - n2) eq_refl) as (g1 & la1 & -> & Hg & Hv1 & _). cbn [i_pos] in *. destruct (high _ r Hr) as (r1 & Hr1 & Er & _).
    rewrite Er, nth_error_map in Hq. destruct (nth_error (r_rhs r1) q) as [Y1|] eqn:EY; [|discriminate]. injection Hq as Hq.
    assert (HY1 : s1sym Y1). { pose proof (G1_rhs _ _ Hr1) as HF. rewrite Forall_forall in HF. apply HF. eapply nth_error_In; eauto. }
    assert (Hn : Y1 <> tx) by (intros ->; rewrite put_x in Hq; discriminate). rewrite put_not in Hq by auto. subst Y1. exists g1. split; auto. split; auto. split; [exists (k - n2), q, la1, r1; auto|]. split; [apply s1_tm; auto|congruence].
  Qed.
  Lemma high_complete g k t : complete rs sr g k t -> n2 <= k -> exists g1 la1, g = map put g1 /\ Forall s1sym g1 /\ complete G1 n1 g1 (k - n2) la1 /\ rel1 t la1.
  Proof.
    intros (r & Hr & Hv) Hk. replace k with (n2 + (k - n2)) in Hr, Hv by lia. destruct (embed1 _ _ Hv (k - n2) eq_refl) as (g1 & la1 & -> & Hg & Hv1 & Hla). cbn [i_pos i_la] in *. destruct (high _ r Hr) as (r1 & Hr1 & Er & _).
    exists g1, la1. split; auto. split; auto. split; auto. exists r1. split; auto. rewrite Er, map_length in Hv1. auto.
  Qed.
  Lemma low_wants g k q b r t : valid rs sr g (mk_item k q b) -> k < n2 -> nth_error rs k = Some r -> nth_error (r_rhs r) q = Some (TM t) ->
    exists b d, g = map put b ++ d /\ Forall s1sym b /\ wants G1 n1 b tx /\ Forall s2sym d /\ wants G2 n2 d (TM t) /\ has_terminal B2 t.
  Proof.
    intros Hv Hk Hr Hq. destruct (embed2 _ _ Hv Hk) as (b1 & d & la2 & -> & H1 & H2 & H3 & H4 & _). cbn [i_rule i_pos] in *. destruct (low k Hk) as [El E2]. rewrite El in Hr. exists b1, d. split; auto. split; auto. split; auto. split; auto.
    split; [exists k, q, la2, r; rewrite E2; auto|]. exists r. split; eapply nth_error_In; eauto.
  Qed.
  Lemma low_complete g k t : complete rs sr g k t -> k < n2 ->
    exists b d la2, g = map put b ++ d /\ Forall s1sym b /\ wants G1 n1 b tx /\ Forall s2sym d /\ complete G2 n2 d k la2 /\ la2_ok t la2.
  Proof.
    intros (r & Hr & Hv) Hk. destruct (embed2 _ _ Hv Hk) as (b1 & d & la2 & -> & H1 & H2 & H3 & H4 & H5). cbn [i_rule i_pos i_la] in *. destruct (low k Hk) as [El E2]. rewrite El in Hr. exists b1, d, la2. split; auto. split; auto. split; auto. split; auto. split; auto.
    exists r. rewrite E2. auto.
  Qed.
  (** inner and outer items do not interfere *)
  Lemma both b d g1 it : Forall s1sym b -> Forall s1sym g1 -> Forall s2sym d -> valid G1 n1 g1 it -> map put b ++ d = map put g1 -> forall k, k <> n2 -> complete G2 n2 d k TEoi -> False.
  Proof. intros H1 H2 H3 H4 E k Hk Hc. destruct (split_outer _ _ _ _ H1 H2 H3 H4 E) as [[-> _]|[-> _]]; [eapply no_end0; eauto|eapply no_end1; eauto]. Qed.
  Lemma both_x b d g1 j : Forall s1sym b -> Forall s1sym g1 -> Forall s2sym d -> wants G1 n1 b tx -> j <> n1 -> complete G1 n1 g1 j (TSym x) -> map put b ++ d = map put g1 -> False.
  Proof.
    intros H1 H2 H3 H4 Hj Hc E. pose proof Hc as (r & Hr & Hv). destruct (split_outer _ _ _ _ H1 H2 H3 Hv E) as [[_ ->]|[_ ->]].
    - destruct (cf1 _ _ _ Hj Hc) as [Hn _]. auto.
    - eapply no_complete2; eauto.
  Qed.
  Lemma t12 t : has_terminal B1 t -> has_terminal B2 t -> False.
  Proof. intros A B. eapply (proj1 Hdis); eauto. Qed.
  Lemma cross g k k' t : complete rs sr g k t -> k < n2 -> complete rs sr g k' t -> n2 <= k' -> k' <> sr -> False.
  Proof.
    intros Hc Hk Hc' Hk' Hsr. destruct (low_complete _ _ _ Hc Hk) as (b & d & la2 & -> & H1 & H2 & H3 & H4 & H5). destruct (high_complete _ _ _ Hc' Hk') as (g1 & la1 & E & H6 & H7 & H8).
    destruct H5 as [[-> T2]|[-> T1]].
    - destruct H8 as [(_ & -> & [->|T1])|[-> _]]; [exact (t2_eoi T2)|exact (t12 _ T1 T2)|]. eapply (both_x b d g1 (k' - n2)); eauto. rewrite sr_eq in Hsr. lia.
    - destruct H7 as (r & Hr & Hv). eapply (both b d g1) with (k := k); eauto; lia.
  Qed.

  Lemma nest_free : conflict_free rs sr.
  Proof.
    intros g k t Hk Hc. destruct (Nat.lt_ge_cases k n2) as [Hl|Hl].
    - destruct (low_complete _ _ _ Hc Hl) as (b & d & la2 & Eg & H1 & H2 & H3 & H4 & H5). assert (Hkn : k <> n2) by lia. split.
      + intros (k2 & q & lb & r & Hv & Hr & Hq). destruct (Nat.lt_ge_cases k2 n2) as [Hl2|Hl2].
        * destruct (low_wants _ _ _ _ _ _ Hv Hl2 Hr Hq) as (b' & d' & Eg' & H1' & H2' & H3' & H4' & T2). rewrite Eg in Eg'. apply split_eq in Eg' as [<- <-]; auto.
          destruct H5 as [[-> _]|[_ [->|T1]]]; [|exact (t2_eoi T2)|exact (t12 _ T1 T2)]. destruct (cf2 _ _ _ Hkn H4) as [A _]. auto.
        * destruct (high_wants _ _ _ _ _ _ Hv Hl2 Hr Hq) as (g1 & Eg' & H6 & H7 & T1 & _). destruct H5 as [[-> T2]|[-> _]]; [exact (t12 _ T1 T2)|]. destruct H7 as (j & q' & lb' & r' & Hv' & _).
          eapply (both b d g1) with (k := k); eauto; congruence.
      + intros k' Hk' Hc'. destruct (Nat.lt_ge_cases k' n2) as [Hl2|Hl2]; [|exfalso; exact (cross _ _ _ _ Hc Hl Hc' Hl2 Hk')].
        destruct (low_complete _ _ _ Hc' Hl2) as (b' & d' & la2' & Eg' & H1' & H2' & H3' & H4' & H5'). rewrite Eg in Eg'. apply split_eq in Eg' as [<- <-]; auto.
        assert (la2' = la2) as ->.
        { destruct H5 as [[-> T2]|[-> T1]], H5' as [[-> T2']|[-> T1']]; auto; exfalso.
          - destruct T1' as [->|T1']; [exact (t2_eoi T2)|exact (t12 _ T1' T2)].
          - destruct T1 as [->|T1]; [exact (t2_eoi T2')|exact (t12 _ T1 T2')]. }
        destruct (cf2 _ _ _ Hkn H4) as [_ A]. apply A; auto. lia.
    - destruct (high_complete _ _ _ Hc Hl) as (g1 & la1 & Eg & H1 & H2 & H3). assert (Hj : k - n2 <> n1) by (rewrite sr_eq in Hk; lia). split.
      + intros (k2 & q & lb & r & Hv & Hr & Hq). destruct (Nat.lt_ge_cases k2 n2) as [Hl2|Hl2].
        * destruct (low_wants _ _ _ _ _ _ Hv Hl2 Hr Hq) as (b' & d' & Eg' & H1' & H2' & H3' & H4' & T2). destruct H3 as [(_ & -> & [->|T1])|[-> _]]; [exact (t2_eoi T2)|exact (t12 _ T1 T2)|].
          eapply (both_x b' d' g1 (k - n2)); eauto. congruence.
        * destruct (high_wants _ _ _ _ _ _ Hv Hl2 Hr Hq) as (g1' & Eg' & H6 & H7 & T1 & Hn). rewrite Eg in Eg'. apply puts_inj in Eg'; auto. subst g1'.
          destruct H3 as [(_ & -> & _)|[_ T2]]; [|exact (t12 _ T1 T2)]. destruct (cf1 _ _ _ Hj H2) as [A _]. auto.
      + intros k' Hk' Hc'. destruct (Nat.lt_ge_cases k' n2) as [Hl2|Hl2]; [exfalso; exact (cross _ _ _ _ Hc' Hl2 Hc Hl Hk)|].
        destruct (high_complete _ _ _ Hc' Hl2) as (g1' & la1' & Eg' & H1' & H2' & H3'). rewrite Eg in Eg'. apply puts_inj in Eg'; auto. subst g1'.
        assert (la1' = la1) as ->.
        { destruct H3 as [(A1 & A2 & A3)|[-> T2]], H3' as [(A1' & A2' & A3')|[-> T2']]; auto; [congruence|exfalso..]; subst.
          - destruct A3 as [->|T1]; [exact (t2_eoi T2')|exact (t12 _ T1 T2')].
          - destruct A3' as [->|T1]; [exact (t2_eoi T2)|exact (t12 _ T1 T2)]. }
        destruct (cf1 _ _ _ Hj H2) as [_ A]. assert (k' - n2 = k - n2); [|lia]. apply A; auto. rewrite sr_eq in Hk'. lia.
  Qed.
End Nest.
