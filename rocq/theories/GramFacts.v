(** * Facts about derivations used by the theorems on [parse] *)
From Coq Require Import List Arith Lia Bool Sorted.
From Verif Require Import Lib Grammar LrModel LrSpec LrSets LrStates LrNew LrTop ParseInv ParseComplete.
Import ListNotations.

Lemma ders_app rs l1 l2 w1 w2 : ders rs l1 w1 -> ders rs l2 w2 -> ders rs (l1 ++ l2) (w1 ++ w2).
Proof.
  intros H1 H2. revert w1 H1. induction l1 as [|X l1 IH]; intros w1 H1; inversion H1; subst; simpl; auto.
  rewrite <- app_assoc. constructor; auto.
Qed.
Lemma ders_app_inv rs l1 l2 w : ders rs (l1 ++ l2) w -> exists w1 w2, w = w1 ++ w2 /\ ders rs l1 w1 /\ ders rs l2 w2.
Proof.
  revert w. induction l1 as [|X l1 IH]; intros w H; simpl in *.
  - exists [], w. split; auto. split; [constructor|auto].
  - inversion H; subst. destruct (IH _ H4) as (w1 & w2 & -> & A & B). exists (u ++ w1), w2. rewrite app_assoc. split; auto. split; auto. constructor; auto.
Qed.
Lemma ders_one rs X w : ders rs [X] w <-> der rs X w.
Proof.
  split; intros H.
  - inversion H; subst. inversion H4; subst. rewrite app_nil_r. auto.
  - rewrite <- (app_nil_r w). constructor; auto. constructor.
Qed.
Lemma rewr_ders rs l l' w : rewr rs l l' -> ders rs l' w -> ders rs l w.
Proof.
  induction 1 as [l|l1 r l2 l' Hr H IH]; auto. intros Hd. specialize (IH Hd).
  apply ders_app_inv in IH as (w1 & w2 & -> & A & B). apply ders_app_inv in B as (w3 & w4 & -> & B & C).
  apply ders_app; auto. constructor; auto. constructor; auto.
Qed.
Lemma der_incl rs rs' : incl rs rs' -> (forall X w, der rs X w -> der rs' X w) /\ (forall l w, ders rs l w -> ders rs' l w).
Proof. intros Hi. apply der_ders_ind; intros; constructor; auto. Qed.
Lemma ders_all rs l : (forall X, In X l -> exists w, der rs X w) -> exists w, ders rs l w.
Proof.
  induction l as [|X l IH]; intros H; [exists []; constructor|].
  destruct (H X) as [u Hu]; simpl; auto. destruct IH as [v Hv]; [intros; apply H; simpl; auto|]. exists (u ++ v). constructor; auto.
Qed.

Definition fst_of (w : list term) (d : term) : term := match w with [] => d | t :: _ => t end.

Lemma skipn_nth_cons {A} (l : list A) q X : nth_error l q = Some X -> skipn q l = X :: skipn (S q) l.
Proof. revert q. induction l as [|y l IH]; intros [|h] Eq; simpl in *; try discriminate; [congruence|]. apply IH in Eq. auto. Qed.

Section Aug.
  Variables (rules : list rule) (start ss : nat).
  Let rs := augment rules start ss.
  Let sr := length rules.
  Hypothesis Hss : ~ In ss (nonterminals rules).
  Hypothesis Heoi : no_eoi rules.

  Lemma aug_incl : incl rules rs.
  Proof. intros r H. unfold rs, augment. apply in_or_app. auto. Qed.
  Lemma ss_rhs r : In r rules -> ~ In (NT ss) (r_rhs r).
  Proof. intros H1 H2. apply Hss, nonterminals_spec. exists r. auto. Qed.
  Lemma ss_lhs r : In r rules -> r_lhs r <> ss.
  Proof. intros H1 H2. apply Hss, nonterminals_spec. exists r. auto. Qed.
  Lemma aug_In r : In r rs -> r_lhs r <> ss -> In r rules.
  Proof. intros H1 H2. unfold rs, augment in H1. apply in_app_or in H1 as [H1|[<-|[]]]; auto. simpl in H2. congruence. Qed.

  (** the rule that is added does not change what can be derived *)
  Lemma der_aug0 : (forall X w, der rs X w -> X <> NT ss -> der rules X w) /\ (forall l w, ders rs l w -> ~ In (NT ss) l -> ders rules l w).
  Proof.
    apply der_ders_ind; try (intros; constructor; auto; fail).
    - intros r w Hr _ IH Hn. assert (Hr' : In r rules) by (apply aug_In; auto; congruence). constructor; auto. apply IH, ss_rhs. auto.
    - intros X l u v _ IH1 _ IH2 H. simpl in H. constructor; auto.
  Qed.
  Lemma der_ss_start : start = ss -> (forall X w, der rs X w -> X <> NT ss) /\ (forall l w, ders rs l w -> ~ In (NT ss) l).
  Proof.
    intros Es. apply der_ders_ind; auto; try discriminate.
    - intros r w Hr _ IH Hq. injection Hq as Hq. destruct (in_app_or _ _ _ Hr) as [H|[<-|[]]]; [eapply ss_lhs; eauto|]. apply IH. simpl. left. congruence.
    - intros X l u v _ IH1 _ IH2 [H|H]; auto.
  Qed.
  Lemma der_aug w : der rs (NT start) w <-> der rules (NT start) w.
  Proof.
    split; [|apply der_incl, aug_incl]. intros H. apply der_aug0; auto. destruct (Nat.eq_dec start ss) as [Es|Es]; [|congruence].
    apply (proj1 (der_ss_start Es) _ _ H).
  Qed.

  (** what an item valid for [g] says about the sentential forms that start with [g] *)
  Lemma valid_rewr g it : valid rs sr g it -> exists r, nth_error rs (i_rule it) = Some r /\
    exists z, firsts rs (z ++ [TM TEoi]) (i_la it) /\ ~ In (TM TEoi) z /\ (forall X, In X z -> exists r, In r rules /\ In X (r_rhs r)) /\
      (i_rule it = sr \/ exists r0, In r0 rules /\ r_lhs r0 = start /\ rewr rs (r_rhs r0) (g ++ skipn (i_pos it) (r_rhs r) ++ z)).
  Proof.
    intros H. pose proof H as H0. induction H as [|g k p la r X H IH Hr Hp|g k p la r A k' r' t H IH Hr Hp Hr' HA Ht]; simpl in *.
    - eexists. split; [apply augment_start|]. exists []. split; [exists []; constructor|]. repeat split; simpl; auto. intros X [].
    - destruct (IH H) as (r1 & E1 & z & Z1 & Z2 & Z3 & Z4). rewrite Hr in E1. injection E1 as <-. exists r. split; auto. exists z.
      split; auto. split; auto. split; auto. destruct Z4 as [Z4|(r0 & A1 & A2 & A3)]; auto. right. exists r0. split; auto. split; auto.
      rewrite (skipn_nth_cons _ _ _ Hp) in A3. rewrite <- app_assoc. exact A3.
    - destruct (IH H) as (r1 & E1 & z & Z1 & Z2 & Z3 & Z4). rewrite Hr in E1. injection E1 as <-. exists r'. split; auto.
      destruct (Nat.eq_dec k' sr) as [Hk'|Hk'].
      + exists []. subst k'. unfold rs, sr in Hr'. rewrite augment_start in Hr'. injection Hr' as <-. simpl in HA.
        assert (Ek : k = sr).
        { destruct (Nat.eq_dec k sr) as [|Hk]; auto. exfalso. unfold rs in Hr. rewrite augment_old in Hr by auto. eapply ss_rhs; [eapply nth_error_In; eauto|].
          rewrite HA. eapply nth_error_In; eauto. }
        subst k. unfold rs, sr in Hr. rewrite augment_start in Hr. injection Hr as <-. simpl in Hp. destruct p as [|p]; [|destruct p; discriminate].
        pose proof (start_item_la rules start ss Hss _ _ H eq_refl) as Hla. simpl in Hla. subst la. simpl in Ht. simpl. split; auto. split; auto. split; [intros X []|auto].
      + assert (Hir : In r' rules) by (unfold rs in Hr'; rewrite augment_old in Hr' by auto; eapply nth_error_In; eauto).
        destruct (Nat.eq_dec k sr) as [->|Hk].
        * exists []. unfold rs, sr in Hr. rewrite augment_start in Hr. injection Hr as <-. simpl in Hp. destruct p as [|p]; [|destruct p; discriminate].
          pose proof (start_item_la rules start ss Hss _ _ H eq_refl) as Hla. simpl in Hla. subst la. simpl in Ht.
          injection Hp as Hp. split; auto. split; auto. split; [intros X []|]. right. exists r'. split; auto. split; [congruence|].
          pose proof (start_items rules start ss Hss _ _ H eq_refl) as Eg. simpl in Eg. subst g. simpl. rewrite app_nil_r. constructor.
        * destruct Z4 as [Z4|(r0 & A1 & A2 & A3)]; [congruence|].
          assert (Hir0 : In r rules) by (unfold rs in Hr; rewrite augment_old in Hr by auto; eapply nth_error_In; eauto).
          rewrite (skipn_nth_cons _ _ _ Hp) in A3. assert (Hsk : forall X, In X (skipn (S p) (r_rhs r)) -> In X (r_rhs r)).
          { intros X HX. rewrite <- (firstn_skipn (S p) (r_rhs r)). apply in_or_app. auto. }
          exists (skipn (S p) (r_rhs r) ++ z). split.
          { apply firsts_firstl. apply firsts_firstl in Ht. apply firsts_firstl in Z1. rewrite <- app_assoc. apply firstl_app. apply firstl_app in Ht as [Ht|[Ht1 Ht2]]; auto.
            right. split; auto. inversion Ht2; subst; auto. match goal with Hx : der _ (TM _) [] |- _ => inversion Hx end. }
          split. { rewrite in_app_iff. intros [Hin|Hin]; [eapply Heoi; eauto|auto]. }
          split. { intros X. rewrite in_app_iff. intros [Hin|Hin]; eauto. }
          right. exists r0. split; auto. split; auto. eapply rewr_trans; [exact A3|]. simpl. subst A.
          apply rewr_step with (r := r'); [apply aug_incl; auto|]. constructor.
  Qed.

  Lemma rewr_aug l l' : rewr rs l l' -> ~ In (NT ss) l -> rewr rules l l'.
  Proof.
    induction 1 as [l|l1 r l2 l' Hr H IH]; intros Hn; [constructor|].
    rewrite in_app_iff in Hn. simpl in Hn. assert (Hr' : In r rules) by (apply aug_In; auto; intros Eq; rewrite Eq in Hn; tauto).
    apply rewr_step; auto. apply IH. rewrite !in_app_iff. pose proof (ss_rhs r Hr'). tauto.
  Qed.

  Lemma firstl_eoi l t : firstl rs l t -> t = TEoi -> In (TM TEoi) l.
  Proof.
    induction 1 as [t l|r l t Hr H IH|X l t Hd H IH]; intros ->; simpl; auto. exfalso. specialize (IH eq_refl).
    destruct (in_app_or _ _ _ Hr) as [H1|[<-|[]]]; [eapply Heoi; eauto|]. simpl in IH. destruct IH as [IH|[]]. discriminate.
  Qed.
  Lemma all_null_rewr l : (forall X, In X l -> der rs X []) -> rewr rs l [].
  Proof. intros H. pose proof (ders_all_null rs l H) as H1. apply (proj2 (der_rewr rs)) in H1. exact H1. Qed.

  (** early acceptance needs a start symbol that rewrites to itself *)
  Lemma early_cyclic : early rules start ss -> cyclic rules start.
  Proof.
    intros (g & k & Hk & (r & Hr & Hv) & Ha). fold sr in Hk. fold rs sr in Hr, Hv.
    assert (Eg : g = [NT start]).
    { destruct Ha as (r0 & Hr0 & Hv0). fold sr in Hr0. pose proof (start_items rules start ss Hss _ _ Hv0 eq_refl) as Eg.
      fold sr in Hr0. rewrite augment_start in Hr0. injection Hr0 as <-. exact Eg. }
    subst g. destruct (valid_rewr _ _ Hv) as (r1 & E1 & z & Z1 & Z2 & _ & Z4). simpl in *. rewrite Hr in E1. injection E1 as <-.
    destruct Z4 as [Z4|(r0 & A1 & A2 & A3)]; [congruence|]. rewrite skipn_all in A3. simpl in A3.
    exists r0. split; auto. split; auto. apply rewr_aug; [|apply ss_rhs; auto].
    eapply rewr_trans; [exact A3|]. apply firsts_firstl in Z1. apply firstl_app in Z1 as [Z1|[Z1 _]].
    - exfalso. apply Z2. apply (firstl_eoi _ _ Z1 eq_refl).
    - pose proof (rewr_ctx rs z [] (all_null_rewr _ Z1) [NT start] []) as C. rewrite !app_nil_r in C. exact C.
  Qed.

  Definition okX (X : sym) : Prop := (exists w, der rules X w) /\ X <> NT ss.
  Lemma prod_ok r : productive rules -> In r rules -> Forall okX (r_rhs r).
  Proof. intros Hp Hr. apply Forall_forall. intros X HX. split; [eapply Hp; eauto|]. intros ->. eapply ss_rhs; eauto. Qed.
  Lemma ok_ders l : Forall okX l -> exists w, ders rules l w.
  Proof. intros H. apply ders_all. intros X HX. rewrite Forall_forall in H. apply H. auto. Qed.

  Lemma firstl_word l t : productive rules -> firstl rs l t -> Forall okX l -> exists w, ders rules l (t :: w).
  Proof.
    intros Hp. induction 1 as [t l|r l t Hr H IH|X l t Hd H IH]; intros Hf; inversion Hf as [|Y l' HY Hl]; subst.
    - destruct (ok_ders l Hl) as [w Hw]. exists w. change (t :: w) with ([t] ++ w). constructor; auto. constructor.
    - destruct HY as [_ HY]. assert (Hr' : In r rules) by (apply aug_In; auto; congruence).
      destruct (IH (prod_ok r Hp Hr')) as [u Hu]. destruct (ok_ders l Hl) as [w Hw]. exists (u ++ w).
      change (t :: u ++ w) with ((t :: u) ++ w). constructor; auto. constructor; auto.
    - destruct (IH Hl) as [w Hw]. exists w. change (t :: w) with ([] ++ t :: w). constructor; auto. destruct HY as [_ HY]. apply der_aug0; auto.
  Qed.
  Lemma firsts_word l b t : productive rules -> firsts rs (l ++ [TM b]) t -> Forall okX l -> exists w, ders rules l w /\ fst_of w b = t.
  Proof.
    intros Hp Hf Hl. apply firsts_firstl in Hf. destruct (firstl_word _ _ Hp Hf) as [w Hw].
    { apply Forall_app. split; auto. constructor; [|constructor]. split; [exists [b]; constructor|discriminate]. }
    apply ders_app_inv in Hw as (w1 & w2 & E & A & B). apply ders_one in B. inversion B; subst. exists w1. split; auto.
    destruct w1; simpl in *; congruence.
  Qed.
End Aug.
