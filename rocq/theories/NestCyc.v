(** * Nested grammars: the start symbol does not rewrite to itself *)
From Coq Require Import List Arith Lia Bool.
From Verif Require Import Lib Grammar LrSets GramFacts ParseInv ParseComplete NestSpec.
Import ListNotations.

Section Cyc.
  Variables (B1 B2 : list rule) (S1 x X : nat).
  Hypothesis Hdis : disjoint_grammars B1 B2.
  Hypothesis HS1 : has_nonterminal B1 S1.
  Hypothesis HX2 : has_nonterminal B2 X.
  Hypothesis Hnull : ~ der B2 (NT X) [].
  Notation H := (B2 ++ map (put_rule x X) B1).
  Notation tx := (TM (TSym x)).
  Notation put := (put_sym x X).
  Definition in1 (Y : sym) : Prop := match Y with NT A => has_nonterminal B1 A | TM t => has_terminal B1 t end.
  Definition in2 (Y : sym) : Prop := match Y with NT A => has_nonterminal B2 A | TM t => has_terminal B2 t end.

  Inductive rel : list sym -> list sym -> Prop :=
  | rel_nil : rel [] []
  | rel_same Y l m : Y <> tx -> in1 Y -> rel l m -> rel (Y :: l) (Y :: m)
  | rel_block b l m : rewr B2 [NT X] b -> rel l m -> rel (tx :: l) (b ++ m).

  Lemma rel_app l m : rel l m -> forall l' m', rel l' m' -> rel (l ++ l') (m ++ m').
  Proof. induction 1; intros l' m' H'; simpl; auto; [constructor; auto|]. rewrite <- app_assoc. constructor; auto. Qed.
  Lemma rel_put l : Forall in1 l -> rel l (map put l).
  Proof.
    induction 1 as [|Y l HY _ IH]; simpl; [constructor|]. destruct Y as [A|[t| |]]; simpl; try (constructor; auto; discriminate).
    destruct (Nat.eqb_spec t x) as [->|Hne]; [apply (rel_block [NT X]); auto; constructor|constructor; auto; congruence].
  Qed.
  Lemma block_ne b : rewr B2 [NT X] b -> b <> [].
  Proof. intros Hb ->. apply Hnull. apply ders_one. eapply rewr_ders; eauto. constructor. Qed.
  Lemma in2_rhs r : In r B2 -> Forall in2 (r_rhs r).
  Proof. intros Hr. apply Forall_forall. intros [A|t] HY; exists r; auto. Qed.
  Lemma in1_rhs r : In r B1 -> Forall in1 (r_rhs r).
  Proof. intros Hr. apply Forall_forall. intros [A|t] HY; exists r; auto. Qed.
  Lemma block_in2 l b : rewr B2 l b -> Forall in2 l -> Forall in2 b.
  Proof.
    induction 1 as [|l1 r l2 l' Hr _ IH]; auto. intros Hf. apply IH. apply Forall_app in Hf as [F1 F2]. inversion F2; subst.
    apply Forall_app. split; auto. apply Forall_app. split; auto. apply in2_rhs; auto.
  Qed.
  Lemma rel_split l m : rel l m -> forall m1 Z m2, m = m1 ++ Z :: m2 ->
    (exists l1 l2, l = l1 ++ Z :: l2 /\ rel l1 m1 /\ rel l2 m2 /\ in1 Z) \/
    (exists l1 l2 b1 b2 n1 n2, l = l1 ++ tx :: l2 /\ m1 = n1 ++ b1 /\ m2 = b2 ++ n2 /\ rewr B2 [NT X] (b1 ++ Z :: b2) /\ rel l1 n1 /\ rel l2 n2).
  Proof.
    induction 1 as [|Y l m HY H1 Hl IH|b l m Hb Hl IH]; intros m1 Z m2 E0.
    - destruct m1; discriminate.
    - destruct m1 as [|Y' m1]; simpl in E0; injection E0 as -> E0.
      + subst. left. exists [], l. repeat split; auto. constructor.
      + destruct (IH _ _ _ E0) as [(l1 & l2 & -> & A1 & A2 & A3)|(l1 & l2 & b1 & b2 & n1 & n2 & -> & -> & -> & A1 & A2 & A3)].
        * left. exists (Y' :: l1), l2. repeat split; auto. constructor; auto.
        * right. exists (Y' :: l1), l2, b1, b2, (Y' :: n1), n2. repeat split; auto. constructor; auto.
    - apply app_eq_app in E0 as [q [[E1 E2]|[E1 E2]]].
      + destruct q as [|Z' q]; simpl in E2.
        * rewrite app_nil_r in E1. subst b. destruct (IH [] _ _ (eq_sym E2)) as [(l1 & l2 & -> & A1 & A2 & A3)|(l1 & l2 & b1 & b2 & n1 & n2 & -> & E1 & -> & A1 & A2 & A3)].
          -- left. exists (tx :: l1), l2. repeat split; auto. rewrite <- (app_nil_r m1). constructor; auto.
          -- right. exists (tx :: l1), l2, b1, b2, (m1 ++ n1), n2. repeat split; auto; [|constructor; auto]. rewrite <- app_assoc, <- E1, app_nil_r. auto.
        * injection E2 as <- ->. subst b. right. exists [], l, m1, q, [], m. repeat split; auto. constructor.
      + subst m1. destruct (IH q Z m2 E2) as [(l1 & l2 & -> & A1 & A2 & A3)|(l1 & l2 & b1 & b2 & n1 & n2 & -> & -> & -> & A1 & A2 & A3)].
        * left. exists (tx :: l1), l2. repeat split; auto. constructor; auto.
        * right. exists (tx :: l1), l2, b1, b2, (b ++ n1), n2. rewrite app_assoc. repeat split; auto. constructor; auto.
  Qed.
  Lemma rel_rewr m m' : rewr H m m' -> forall l, rel l m -> exists l', rewr B1 l l' /\ rel l' m'.
  Proof.
    induction 1 as [m|m1 r m2 m' Hr _ IH]; intros l Hl; [exists l; split; [constructor|auto]|].
    destruct (rel_split _ _ Hl _ _ _ eq_refl) as [(l1 & l2 & -> & A1 & A2 & A3)|(l1 & l2 & b1 & b2 & n1 & n2 & -> & -> & -> & A1 & A2 & A3)].
    - apply in_app_or in Hr as [Hr|Hr].
      + exfalso. apply (proj2 Hdis (r_lhs r)); auto. exists r. auto.
      + apply in_map_iff in Hr as (r1 & <- & Hr1). cbn [put_rule r_lhs r_rhs] in *. destruct (IH (l1 ++ r_rhs r1 ++ l2)) as (l' & B & C).
        * apply rel_app; auto. apply rel_app; auto. apply rel_put. apply in1_rhs. auto.
        * exists l'. split; auto. constructor; auto.
    - assert (Hin : in2 (NT (r_lhs r))).
      { assert (F : Forall in2 (b1 ++ NT (r_lhs r) :: b2)) by (eapply block_in2; eauto; constructor; auto). rewrite Forall_forall in F. apply F. apply in_or_app. right. left. auto. }
      apply in_app_or in Hr as [Hr|Hr].
      + destruct (IH (l1 ++ tx :: l2)) as (l' & B & C); [|eauto]. rewrite <- app_assoc. apply rel_app; auto.
        replace (b1 ++ r_rhs r ++ b2 ++ n2) with ((b1 ++ r_rhs r ++ b2) ++ n2) by (rewrite <- !app_assoc; auto). constructor; auto.
        eapply rewr_trans; [exact A1|]. constructor; auto. constructor.
      + exfalso. apply in_map_iff in Hr as (r1 & <- & Hr1). apply (proj2 Hdis (r_lhs r1)); [exists r1; auto|exact Hin].
  Qed.
  Lemma nest_not_cyclic : ~ cyclic B1 S1 -> ~ cyclic H S1.
  Proof.
    intros Hn (r & Hr & E0 & Hw). apply in_app_or in Hr as [Hr|Hr].
    - apply (proj2 Hdis S1); auto. exists r. auto.
    - apply in_map_iff in Hr as (r1 & <- & Hr1). cbn [put_rule r_lhs r_rhs] in *. apply Hn. exists r1. split; auto. split; auto.
      destruct (rel_rewr _ _ Hw _ (rel_put _ (in1_rhs _ Hr1))) as (l' & A1 & A2).
      assert (l' = [NT S1]) as ->; auto. inversion A2 as [|Y l m HY H1 Hl E1 E2|b l m Hb Hl E1 E2]; subst.
      + inversion Hl as [E3 E4|? ? ? ? ? ? E3 E4|b l0 m Hb Hl0 E3 E4]; subst; auto. exfalso. apply app_eq_nil in E4 as [E4 E5]. subst b m. eapply block_ne; eauto.
      + exfalso. destruct b as [|Z b]; [eapply block_ne; eauto|]. injection E2 as -> E2.
        assert (F : Forall in2 (NT (r_lhs r1) :: b)) by (eapply block_in2; eauto; constructor; auto). inversion F; subst. eapply (proj2 Hdis); eauto.
  Qed.
End Cyc.
