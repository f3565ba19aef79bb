(** * Operator tables: every sequence has a grouping *)
From Coq Require Import List Arith Lia Bool.
From Verif Require Import Lib Grammar LrModel ParseModel Trees ParseSpec OpSpec.
Import ListNotations.

Section Group.
  Context {N T E : Type} (tix : T -> nat) (tb : table N T E).
  Hypothesis Hu : usual_table tb.
  Notation n := (length (tb_levels tb)).
  Notation operator := (operator tix tb).
  Notation grouped := (grouped tix tb).

  Lemma operator_lt f i x g : operator f i x g -> i < n.
  Proof. intros (lv & H & _). apply nth_error_Some. congruence. Qed.
  Lemma same_level f f' i x x' g g' : operator f i x g -> operator f' i x' g' -> f = f'.
  Proof. intros (lv & H & <- & _) (lv' & H' & <- & _). congruence. Qed.
  Lemma no_none i x g : ~ operator InfixNone i x g.
  Proof. intros (lv & H & Hf & _). destruct (Hu i lv H) as [H1 _]. auto. Qed.
  Lemma infix_before f i x g f' i' x' g' : operator f i x g -> is_infix f = true -> operator f' i' x' g' -> is_infix f' = false -> i < i'.
  Proof.
    intros (lv & H & Hf & _) If (lv' & H' & Hf' & _) If'. destruct (lt_eq_lt_dec i i') as [[L|L]|L]; auto; exfalso.
    - subst i'. congruence.
    - destruct (Hu i' lv' H') as [_ H1]. rewrite Hf' in H1. destruct (H1 If' i lv L H) as [H2 _]. congruence.
  Qed.
  Lemma unary_level f i x g i' x' g' : operator f i x g -> is_infix f = false -> operator f i' x' g' -> i = i'.
  Proof.
    intros (lv & H & Hf & _) If (lv' & H' & Hf' & _). destruct (lt_eq_lt_dec i i') as [[L|L]|L]; auto; exfalso.
    - destruct (Hu i lv H) as [_ H1]. rewrite Hf in H1. destruct (H1 If i' lv' L H') as [_ H2]. congruence.
    - destruct (Hu i' lv' H') as [_ H1]. rewrite Hf' in H1. destruct (H1 If i lv L H) as [_ H2]. congruence.
  Qed.

  Lemma push_prefix p x g : operator Prefix p x g -> forall a j, grouped a j -> exists a', grouped a' (Nat.min j p) /\ flat a' = x :: flat a.
  Proof.
    intros Hop a j H. pose proof (operator_lt _ _ _ _ Hop) as Lp.
    induction H as [y h Hy|l a r i Hl Hr Ha IH|a y b i j k h Ho Ha IHa Hij Hb IHb Hik|a y b i j k h Ho Ha IHa Hij Hb IHb Hik|a y b i j k h Ho Ha IHa Hij Hb IHb Hik|y a i j h Ho Ha IHa Hij|a y i j h Ho Ha IHa Hij].
    - rewrite Nat.min_r by lia. exists (Before x (Operand y)). split; auto. eapply grouped_prefix; eauto using grouped_operand. lia.
    - rewrite Nat.min_r by lia. exists (Before x (Brackets l a r)). split; auto. eapply grouped_prefix; eauto using grouped_brackets. lia.
    - pose proof (infix_before _ _ _ _ _ _ _ _ Ho eq_refl Hop eq_refl) as L. rewrite Nat.min_l by lia. destruct IHa as (a' & G & F). exists (Infix a' y b). split; [|simpl; rewrite F; auto].
      eapply grouped_left; eauto. lia.
    - pose proof (infix_before _ _ _ _ _ _ _ _ Ho eq_refl Hop eq_refl) as L. rewrite Nat.min_l by lia. destruct IHa as (a' & G & F). exists (Infix a' y b). split; [|simpl; rewrite F; auto].
      eapply grouped_right; eauto. lia.
    - destruct (no_none _ _ _ Ho).
    - pose proof (unary_level _ _ _ _ _ _ _ Ho eq_refl Hop) as ->. rewrite Nat.min_l by lia. exists (Before x (Before y a)). split; auto. eapply grouped_prefix; [exact Hop|eapply grouped_prefix; eauto|lia].
    - assert (Hne : i <> p). { intros ->. pose proof (same_level _ _ _ _ _ _ _ Ho Hop). discriminate. } destruct (le_lt_dec p i) as [L|L].
      + rewrite Nat.min_r by lia. exists (Before x (Behind a y)). split; auto. eapply grouped_prefix; [exact Hop|eapply grouped_postfix; eauto|lia].
      + rewrite Nat.min_l by lia. destruct IHa as (a' & G & F). exists (Behind a' y). split; [|simpl; rewrite F; auto]. eapply grouped_postfix; eauto. lia.
  Qed.
  Lemma push_postfix p x g : operator Postfix p x g -> forall a j, grouped a j -> exists a', grouped a' (Nat.min j p) /\ flat a' = flat a ++ [x].
  Proof.
    intros Hop a j H. pose proof (operator_lt _ _ _ _ Hop) as Lp.
    induction H as [y h Hy|l a r i Hl Hr Ha IH|a y b i j k h Ho Ha IHa Hij Hb IHb Hik|a y b i j k h Ho Ha IHa Hij Hb IHb Hik|a y b i j k h Ho Ha IHa Hij Hb IHb Hik|y a i j h Ho Ha IHa Hij|a y i j h Ho Ha IHa Hij].
    - rewrite Nat.min_r by lia. exists (Behind (Operand y) x). split; auto. eapply grouped_postfix; eauto using grouped_operand. lia.
    - rewrite Nat.min_r by lia. exists (Behind (Brackets l a r) x). split; auto. eapply grouped_postfix; eauto using grouped_brackets. lia.
    - pose proof (infix_before _ _ _ _ _ _ _ _ Ho eq_refl Hop eq_refl) as L. rewrite Nat.min_l by lia. destruct IHb as (b' & G & F). exists (Infix a y b'). split; [|simpl; rewrite F, <- app_assoc; auto].
      eapply grouped_left; eauto. lia.
    - pose proof (infix_before _ _ _ _ _ _ _ _ Ho eq_refl Hop eq_refl) as L. rewrite Nat.min_l by lia. destruct IHb as (b' & G & F). exists (Infix a y b'). split; [|simpl; rewrite F, <- app_assoc; auto].
      eapply grouped_right; eauto. lia.
    - destruct (no_none _ _ _ Ho).
    - assert (Hne : i <> p). { intros ->. pose proof (same_level _ _ _ _ _ _ _ Ho Hop). discriminate. } destruct (le_lt_dec p i) as [L|L].
      + rewrite Nat.min_r by lia. exists (Behind (Before y a) x). split; auto. eapply grouped_postfix; [exact Hop|eapply grouped_prefix; eauto|lia].
      + rewrite Nat.min_l by lia. destruct IHa as (a' & G & F). exists (Before y a'). split; [|simpl; rewrite F; auto]. eapply grouped_prefix; eauto. lia.
    - pose proof (unary_level _ _ _ _ _ _ _ Ho eq_refl Hop) as ->. rewrite Nat.min_l by lia. exists (Behind (Behind a y) x). split; auto. eapply grouped_postfix; [exact Hop|eapply grouped_postfix; eauto|lia].
  Qed.

  (** an infix operator and one operand that is not itself an infix expression *)
  Lemma push_infix i x f g : operator f i x g -> is_infix f = true -> forall p k, grouped p k -> (forall f' i' x' g', operator f' i' x' g' -> is_infix f' = true -> i' < k) ->
    forall a j, grouped a j -> exists a', grouped a' (Nat.min j i) /\ flat a' = flat a ++ x :: flat p.
  Proof.
    intros Hop If p k Gp Lk. pose proof (operator_lt _ _ _ _ Hop) as Lp. pose proof (Lk _ _ _ _ Hop If) as Lik.
    assert (Hnew : forall a j, grouped a j -> i < j -> exists a', grouped a' (Nat.min j i) /\ flat a' = flat a ++ x :: flat p).
    { intros a j G L. rewrite Nat.min_r by lia. exists (Infix a x p). split; auto. destruct f; try discriminate.
      - eapply grouped_left; eauto; lia.
      - eapply grouped_right; eauto; lia.
      - destruct (no_none _ _ _ Hop). }
    intros a j H.
    induction H as [y h Hy|l a r i' Hl Hr Ha IH|a y b i' j k' h Ho Ha IHa Hij Hb IHb Hik|a y b i' j k' h Ho Ha IHa Hij Hb IHb Hik|a y b i' j k' h Ho Ha IHa Hij Hb IHb Hik|y a i' j h Ho Ha IHa Hij|a y i' j h Ho Ha IHa Hij].
    - apply Hnew; auto. eapply grouped_operand; eauto.
    - apply Hnew; auto. eapply grouped_brackets; eauto.
    - assert (G : grouped (Infix a y b) i') by (eapply grouped_left; eauto). destruct (lt_eq_lt_dec i' i) as [[L|L]|L].
      + rewrite Nat.min_l by lia. destruct IHb as (b' & Gb & F). exists (Infix a y b'). split; [eapply grouped_left; eauto; lia|simpl; rewrite F, <- app_assoc; auto].
      + subst i'. rewrite Nat.min_id. exists (Infix (Infix a y b) x p). split; auto. pose proof (same_level _ _ _ _ _ _ _ Ho Hop) as <-. eapply grouped_left; eauto.
      + apply Hnew; auto.
    - assert (G : grouped (Infix a y b) i') by (eapply grouped_right; eauto). destruct (le_lt_dec i' i) as [L|L].
      + rewrite Nat.min_l by lia. destruct IHb as (b' & Gb & F). exists (Infix a y b'). split; [eapply grouped_right; eauto; lia|simpl; rewrite F, <- app_assoc; auto].
      + apply Hnew; auto.
    - destruct (no_none _ _ _ Ho).
    - apply Hnew; [eapply grouped_prefix; eauto|]. eapply infix_before; eauto.
    - apply Hnew; [eapply grouped_postfix; eauto|]. eapply infix_before; eauto.
  Qed.
  Lemma join_infix b k : grouped b k -> forall f i x g a j, operator f i x g -> is_infix f = true -> grouped a j -> exists a' j', grouped a' j' /\ flat a' = flat a ++ x :: flat b.
  Proof.
    assert (H0 : forall p k, grouped p k -> (forall f' i' x' g', operator f' i' x' g' -> is_infix f' = true -> i' < k) ->
      forall f i x g a j, operator f i x g -> is_infix f = true -> grouped a j -> exists a' j', grouped a' j' /\ flat a' = flat a ++ x :: flat p).
    { intros p k' Gp Lp f i x g a j Ho If Ga. destruct (push_infix i x f g Ho If p k' Gp Lp a j Ga) as (a' & G & F). eauto. }
    induction 1 as [y h Hy|l b r i' Hl Hr Ha IH|b1 y b2 i' j' k' h Ho Ha IHa Hij Hb IHb Hik|b1 y b2 i' j' k' h Ho Ha IHa Hij Hb IHb Hik|b1 y b2 i' j' k' h Ho Ha IHa Hij Hb IHb Hik|y b i' j' h Ho Ha IHa Hij|b y i' j' h Ho Ha IHa Hij].
    - eapply H0; [eapply grouped_operand; eauto|]. intros. eapply operator_lt; eauto.
    - eapply H0; [eapply grouped_brackets; eauto|]. intros. eapply operator_lt; eauto.
    - intros f i x g a j Hop If Ga. destruct (IHa f i x g a j Hop If Ga) as (a1 & j1 & G1 & F1). destruct (IHb InfixLeft _ y h a1 j1 Ho eq_refl G1) as (a2 & j2 & G2 & F2).
      exists a2, j2. split; auto. rewrite F2, F1. simpl. rewrite <- app_assoc. auto.
    - intros f i x g a j Hop If Ga. destruct (IHa f i x g a j Hop If Ga) as (a1 & j1 & G1 & F1). destruct (IHb InfixRight _ y h a1 j1 Ho eq_refl G1) as (a2 & j2 & G2 & F2).
      exists a2, j2. split; auto. rewrite F2, F1. simpl. rewrite <- app_assoc. auto.
    - destruct (no_none _ _ _ Ho).
    - eapply H0; [eapply grouped_prefix; eauto|]. intros. eapply infix_before; eauto.
    - eapply H0; [eapply grouped_postfix; eauto|]. intros. eapply infix_before; eauto.
  Qed.
  Lemma regroup a : loose tix tb a -> exists a' j, grouped a' j /\ flat a' = flat a.
  Proof.
    induction 1 as [x g Hx|l a r Hl Hr Ha IH|a x b f i g Ho If Ha IHa Hb IHb|x a i g Ho Ha IHa|a x i g Ho Ha IHa].
    - exists (Operand x), n. split; auto. eapply grouped_operand; eauto.
    - destruct IH as (a' & j & G & F). exists (Brackets l a' r), n. split; [eapply grouped_brackets; eauto|simpl; rewrite F; auto].
    - destruct IHa as (a' & j & G & F). destruct IHb as (b' & k & Gb & Fb). destruct (join_infix _ _ Gb f i x g a' j Ho If G) as (c & m & Gc & Fc). exists c, m. split; auto. rewrite Fc, F, Fb. auto.
    - destruct IHa as (a' & j & G & F). destruct (push_prefix i x g Ho a' j G) as (c & Gc & Fc). exists c, (Nat.min j i). split; auto. rewrite Fc, F. auto.
    - destruct IHa as (a' & j & G & F). destruct (push_postfix i x g Ho a' j G) as (c & Gc & Fc). exists c, (Nat.min j i). split; auto. rewrite Fc, F. auto.
  Qed.
End Group.
