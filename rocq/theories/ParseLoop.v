(** * Grammars without cycles and hidden left recursion: reductions come to an end, whatever the conflicts *)
From Coq Require Import List Arith Lia Bool.
From Verif Require Import Lib Grammar LrModel LrSpec LrSets LrStates LrNew LrTop ParseModel Trees ParseInv ParseComplete GramFacts ParseTerm LoopSpec.
Import ListNotations.

Lemma app_tails {A} (a b c d : list A) : a ++ b = c ++ d -> length b = length d -> a = c /\ b = d.
Proof.
  intros H Hl. assert (Hl' : length a = length c) by (apply (f_equal (@length A)) in H; rewrite !app_length in H; lia).
  revert c H Hl'. induction a as [|x a IH]; intros [|y c] H Hl'; simpl in *; try discriminate; auto.
  injection H as -> H. destruct (IH c H ltac:(lia)) as [-> ->]. auto.
Qed.

Section Loop.
  Variables (rules : list rule) (start ss : nat).
  Let rs := augment rules start ss.
  Let sr := length rules.
  Hypothesis Hss : ~ In ss (nonterminals rules).
  Hypothesis Hlf : loop_free rules start.
  Notation null l := (ders rules l []).
  Notation reach := (reachable rules start).

  Lemma null_app a b : null (a ++ b) <-> null a /\ null b.
  Proof.
    split.
    - intros H. apply ders_app_inv in H as (w1 & w2 & E & A & B). symmetry in E. apply app_eq_nil in E as [-> ->]. auto.
    - intros [A B]. change (@nil term) with (@nil term ++ []). apply ders_app; auto.
  Qed.
  Lemma null_rewr l : null l -> rewr rules l [].
  Proof. intros H. apply (proj2 (der_rewr rules)) in H. exact H. Qed.
  Lemma null_rule r : In r rules -> null (r_rhs r) -> null [NT (r_lhs r)].
  Proof. intros H1 H2. apply ders_one. constructor; auto. Qed.

  Lemma reach_rhs r l1 B l2 : reach (r_lhs r) -> In r rules -> r_rhs r = l1 ++ NT B :: l2 -> reach B.
  Proof.
    intros (a & b & H) Hr E. exists (a ++ l1), (l2 ++ b). eapply rewr_trans; [exact H|]. apply rewr_step; auto. rewrite E.
    rewrite <- !app_assoc. simpl. constructor.
  Qed.

  (** ** Left edges *)
  Definition left (A B : nat) : Prop := exists r a b, In r rules /\ r_lhs r = A /\ rewr rules (r_rhs r) (a ++ NT B :: b) /\ null a.
  Definition hl (A B : nat) : Prop := exists r a b, In r rules /\ r_lhs r = A /\ rewr rules (r_rhs r) (a ++ NT B :: b) /\ a <> [] /\ null a.
  Lemma hl_left A B C : hl A B -> left B C -> hl A C.
  Proof.
    intros (r & a & b & H1 & H2 & H3 & H4 & H5) (r2 & a2 & b2 & I1 & I2 & I3 & I4). exists r, (a ++ a2), (b2 ++ b).
    split; auto. split; auto. split.
    - eapply rewr_trans; [exact H3|]. subst B. apply rewr_step; auto. pose proof (rewr_ctx rules _ _ I3 a b) as Hc.
      rewrite <- !app_assoc in *. simpl in *. exact Hc.
    - split; [|apply null_app; auto]. destruct a; [congruence|discriminate].
  Qed.
  Lemma hl_is_left A B : hl A B -> left A B.
  Proof. intros (r & a & b & H1 & H2 & H3 & H4 & H5). exists r, a, b. auto. Qed.
  Lemma hl_irrefl A : reach A -> ~ hl A A.
  Proof. intros Hr H. apply (proj2 (Hlf A Hr)). exact H. Qed.

  Inductive hp : nat -> nat -> Prop :=
  | hp_0 C : hp 0 C
  | hp_S n B C : hp n B -> reach B -> hl B C -> hp (S n) C.
  Lemma hp_left n B C : hp n B -> left B C -> hp n C.
  Proof. intros H Hl. destruct H as [B|n A B H HA Hh]; [constructor|]. econstructor; eauto. eapply hl_left; eauto. Qed.
  Lemma hp_list n C : hp n C -> exists l, length l = n /\ NoDup l /\ incl l (map r_lhs rules) /\ forall B, In B l -> reach B /\ hl B C.
  Proof.
    induction 1 as [C|n B C H (l & L1 & L2 & L3 & L4) HB Hh].
    - exists []. split; auto. split; [constructor|]. split; [intros x []|intros x []].
    - exists (B :: l). split; [simpl; congruence|]. split; [|split].
      + constructor; auto. intros Hin. destruct (L4 _ Hin) as [_ Hx]. eapply hl_irrefl; eauto.
      + intros x [<-|Hx]; [|apply L3; auto]. destruct Hh as (r & a & b & H1 & H2 & _). rewrite <- H2. apply in_map. auto.
      + intros x [<-|Hx]; [auto|]. destruct (L4 _ Hx) as [Hrx Hx']. split; auto. eapply hl_left; [exact Hx'|]. apply hl_is_left. auto.
  Qed.
  Lemma hp_bound n C : hp n C -> n <= length rules.
  Proof.
    intros H. destruct (hp_list n C H) as (l & <- & L2 & L3 & _). rewrite <- (map_length r_lhs rules). apply NoDup_incl_length; auto.
  Qed.

  (** ** How many symbols that derive nothing a viable prefix can end with *)
  Definition M : nat := list_max (map (fun r => length (r_rhs r)) rs).
  Lemma M_rule k r : nth_error rs k = Some r -> length (r_rhs r) <= M.
  Proof.
    intros H. apply nth_error_In in H. unfold M. pose proof (proj1 (list_max_le (map (fun r => length (r_rhs r)) rs) _) (le_n _)) as Hf.
    rewrite Forall_forall in Hf. apply Hf. apply in_map_iff. eauto.
  Qed.
  Lemma rule_in k r : k <> sr -> nth_error rs k = Some r -> In r rules.
  Proof. intros H1 H2. unfold rs in H2. rewrite augment_old in H2 by auto. eapply nth_error_In; eauto. Qed.

  Lemma valid_reach g it : valid rs sr g it -> i_rule it <> sr -> exists r, nth_error rs (i_rule it) = Some r /\ In r rules /\ reach (r_lhs r).
  Proof.
    induction 1 as [|g k p la r X H IH Hr Hp|g k p la r A k' r' t H IH Hr Hp Hr' HA Ht]; simpl in *; intros Hk; auto; [congruence|].
    exists r'. split; auto. split; [eapply rule_in; eauto|]. subst A. destruct (Nat.eq_dec k sr) as [->|Hks].
    - unfold rs, sr in Hr. rewrite augment_start in Hr. injection Hr as <-. simpl in Hp. destruct p as [|[|p]]; try discriminate.
      injection Hp as <-. exists [], []. constructor.
    - destruct (IH Hks) as (r1 & E1 & E2 & E3). assert (r1 = r) by congruence. subst r1.
      apply nth_error_split in Hp as (l1 & l2 & E & _). eapply reach_rhs; eauto.
  Qed.

  Lemma valid_firstn g it : valid rs sr g it -> exists r d, nth_error rs (i_rule it) = Some r /\ g = d ++ firstn (i_pos it) (r_rhs r) /\ i_pos it <= length (r_rhs r).
  Proof.
    induction 1 as [|g k p la r X H IH Hr Hp|g k p la r A k' r' t H IH Hr Hp Hr' HA Ht]; simpl in *.
    - eexists. exists []. split; [apply augment_start|]. split; [reflexivity|lia].
    - destruct IH as (r1 & d & E1 & E2 & E3). assert (r1 = r) by congruence. subst r1. exists r, d. split; auto. split.
      + rewrite E2, <- app_assoc. f_equal. clear - Hp. revert p Hp. induction (r_rhs r) as [|Y l IH]; intros [|p] Hp; simpl in *; try discriminate.
        * injection Hp as ->. reflexivity.
        * f_equal. auto.
      + apply nth_error_Some_lt in Hp. lia.
    - exists r', g. simpl. rewrite app_nil_r. split; auto. split; auto. lia.
  Qed.

  Lemma run_bound g it : valid rs sr g it -> forall d e, g = d ++ e -> null e ->
    exists n, length e <= M * S n + i_pos it /\ (i_rule it <> sr -> forall r, nth_error rs (i_rule it) = Some r -> hp n (r_lhs r)).
  Proof.
    intros H. induction H as [|g k p la r X H IH Hr Hp|g k p la r A k' r' t H IH Hr Hp Hr' HA Ht]; simpl; intros d e Eg He.
    - symmetry in Eg. apply app_eq_nil in Eg as [_ ->]. exists 0. split; [simpl; lia|constructor].
    - destruct e as [|Y e _] using rev_ind.
      + exists 0. split; [simpl; lia|]. constructor.
      + rewrite app_assoc in Eg. apply app_inj_tail in Eg as [Eg <-]. apply null_app in He as [He _]. destruct (IH d e Eg He) as (n & H1 & H2). simpl in *.
        exists n. split; [rewrite app_length; simpl; lia|auto].
    - destruct (Nat.eq_dec k sr) as [->|Hk].
      { pose proof (start_items rules start ss Hss _ _ H eq_refl) as E. simpl in E. unfold rs, sr in Hr. rewrite augment_start in Hr. injection Hr as <-.
        simpl in Hp. destruct p as [|[|p]]; try discriminate. simpl in E. rewrite E in Eg. symmetry in Eg. apply app_eq_nil in Eg as [_ ->].
        exists 0. split; [simpl; lia|constructor]. }
      destruct (IH d e Eg He) as (n & H1 & H2). simpl in *. specialize (H2 Hk r Hr).
      destruct (valid_reach _ _ H Hk) as (r1 & E1 & E2 & E3). simpl in E1. assert (r1 = r) by congruence. subst r1.
      destruct (valid_firstn _ _ H) as (r1 & d1 & F1 & F2 & F3). simpl in *. assert (r1 = r) by congruence. subst r1.
      assert (Ep : r_rhs r = firstn p (r_rhs r) ++ NT A :: skipn (S p) (r_rhs r)) by (rewrite <- (skipn_nth_cons _ _ _ Hp); symmetry; apply firstn_skipn).
      destruct (Nat.eq_dec p 0) as [->|Hp0].
      { exists n. split; [lia|]. intros _ r0 Er0. assert (r0 = r') by congruence. subst r0. rewrite HA. eapply hp_left; eauto.
        exists r, [], (skipn 1 (r_rhs r)). split; auto. split; auto. split; [|constructor]. simpl in Ep. simpl. rewrite <- Ep. constructor. }
      destruct (Nat.le_gt_cases p (length e)) as [Hle|Hgt].
      + exists (S n). pose proof (M_rule _ _ Hr) as HM. split; [nia|]. intros _ r0 Er0. assert (r0 = r') by congruence. subst r0. rewrite HA. econstructor; eauto.
        exists r, (firstn p (r_rhs r)), (skipn (S p) (r_rhs r)). split; auto. split; auto. split; [rewrite <- Ep; constructor|].
        assert (Elen : length (firstn p (r_rhs r)) = p) by (apply firstn_length_le; auto).
        split; [intros E0; rewrite E0 in Elen; simpl in Elen; lia|].
        assert (Ee : e = firstn (length e - p) e ++ firstn p (r_rhs r)).
        { rewrite <- (firstn_skipn (length e - p) e) at 1. f_equal. assert (E : d ++ e = d1 ++ firstn p (r_rhs r)) by congruence.
          rewrite <- (firstn_skipn (length e - p) e) in E. rewrite app_assoc in E. apply app_tails in E; [tauto|]. rewrite skipn_length. lia. }
        rewrite Ee in He. apply null_app in He. tauto.
      + exists 0. pose proof (M_rule _ _ Hr) as HM. split; [simpl; lia|constructor].
  Qed.

  Definition K : nat := M * S (length rules) + M.
  Lemma run_K d e it : valid rs sr (d ++ e) it -> null e -> length e <= K.
  Proof.
    intros Hv He. destruct (run_bound _ _ Hv d e eq_refl He) as (n & H1 & H2).
    destruct (valid_firstn _ _ Hv) as (r & d1 & F1 & F2 & F3). pose proof (M_rule _ _ F1) as HM. unfold K.
    destruct (Nat.eq_dec (i_rule it) sr) as [Ek|Ek].
    - pose proof (start_items rules start ss Hss _ _ Hv Ek) as E. apply (f_equal (@length sym)) in E. rewrite app_length, firstn_length in E. simpl in E.
      unfold rs, sr in F1. rewrite Ek in F1. unfold sr in F1. rewrite augment_start in F1. injection F1 as <-. simpl in *. nia.
    - specialize (H2 Ek r F1). apply hp_bound in H2. nia.
  Qed.

  (** ** Chains of reductions that replace one symbol *)
  Definition up (Y X : sym) : Prop := exists r b, In r rules /\ reach (r_lhs r) /\ Y = NT (r_lhs r) /\ r_rhs r = X :: b /\ null b.
  Definition uplus (C A : nat) : Prop := reach C /\ exists r, In r rules /\ r_lhs r = C /\ rewr rules (r_rhs r) [NT A].
  Lemma uplus_irrefl A : ~ uplus A A.
  Proof. intros [Hr H]. apply (proj1 (Hlf A Hr)). exact H. Qed.
  Lemma uplus_trans A B C : uplus A B -> uplus B C -> uplus A C.
  Proof.
    intros [HA (r & H1 & H2 & H3)] [HB (r2 & I1 & I2 & I3)]. split; auto. exists r. split; auto. split; auto.
    eapply rewr_trans; [exact H3|]. subst B. change [NT (r_lhs r2)] with ([] ++ NT (r_lhs r2) :: []). apply rewr_step; auto. simpl. rewrite app_nil_r. exact I3.
  Qed.
  Lemma up_uplus C B : up (NT C) (NT B) -> uplus C B.
  Proof.
    intros (r & b & H1 & H2 & H3 & H4 & H5). injection H3 as ->. split; auto. exists r. split; auto. split; auto.
    rewrite H4. apply null_rewr in H5. pose proof (rewr_ctx rules _ _ H5 [NT B] []) as Hc. rewrite !app_nil_r in Hc. exact Hc.
  Qed.
  Lemma up_acc_nt n : forall B l, NoDup l -> incl l (map r_lhs rules) -> (forall A, In A l -> A = B \/ uplus B A) -> In B l ->
    length rules <= n + length l -> Acc up (NT B).
  Proof.
    induction n as [|n IH]; intros B l L1 L2 L3 L4 L5; constructor; intros Y HY.
    all: assert (HC : exists C, Y = NT C /\ In C (map r_lhs rules)) by (destruct HY as (r & b & H1 & H2 & H3 & _); exists (r_lhs r); split; auto; apply in_map; auto).
    all: destruct HC as (C & -> & HC); apply up_uplus in HY.
    all: assert (Hnd : NoDup (C :: l)) by
      (constructor; auto; intros Hin; destruct (L3 _ Hin) as [->|Hx]; [eapply uplus_irrefl; eauto|eapply (uplus_irrefl B), uplus_trans; eauto]).
    all: assert (Hinc : incl (C :: l) (map r_lhs rules)) by (intros x [<-|Hx]; auto).
    - apply NoDup_incl_length in Hinc; auto. rewrite map_length in Hinc. simpl in *. lia.
    - apply (IH C (C :: l)); auto; [|left; auto|simpl; lia]. intros A [->|HA]; auto. right. destruct (L3 _ HA) as [->|Hx]; auto. eapply uplus_trans; eauto.
  Qed.
  Lemma up_wf : well_founded up.
  Proof.
    intros X. constructor. intros Y HY. destruct HY as (r & b & H1 & H2 & -> & _). apply (up_acc_nt (length rules) (r_lhs r) [r_lhs r]).
    - repeat constructor. intros [].
    - intros x [<-|[]]. apply in_map. auto.
    - intros A [->|[]]. auto.
    - left; auto.
    - lia.
  Qed.

  (** ** Reductions come to an end *)
  Variable t : term.
  (** a reduction above the symbols [g], which it leaves alone *)
  Definition uab (g u2 u1 : list sym) : Prop := exists d k r, nth_error rs k = Some r /\ k <> sr /\ u1 = d ++ r_rhs r /\ u2 = d ++ [NT (r_lhs r)] /\
    complete rs sr (g ++ u1) k t.
  Lemma complete_rule g k r : complete rs sr g k t -> k <> sr -> nth_error rs k = Some r -> In r rules /\ reach (r_lhs r).
  Proof.
    intros (r0 & _ & Hv) Hk Hr. destruct (valid_reach _ _ Hv Hk) as (r1 & E1 & E2 & E3). simpl in E1. assert (r1 = r) by congruence. subst r1. auto.
  Qed.

  Lemma acc_cons g X u : Acc (uab (g ++ [X])) u -> null u -> (forall Y, up Y X -> Acc (uab g) [Y]) -> Acc (uab g) (X :: u).
  Proof.
    intros Ha. induction Ha as [u _ IH]. intros Hu HY. constructor. intros u2 (d & k & r & Hr & Hk & E & -> & Hc).
    destruct (complete_rule _ _ _ Hc Hk Hr) as [Hin Hreach]. destruct d as [|X' d]; simpl in E.
    - apply HY. exists r, u. auto.
    - injection E as <- E. simpl. apply IH; auto.
      + exists d, k, r. rewrite <- app_assoc. simpl. auto.
      + rewrite E in Hu. apply null_app in Hu as [Hu1 Hu2]. apply null_app. split; auto. apply null_rule; auto.
  Qed.

  Lemma acc_empty n : forall g e, K < length e + n -> null e -> Acc (uab (g ++ e)) [].
  Proof.
    induction n as [|n IH]; intros g e Hn He; constructor; intros u2 (d & k & r & Hr & Hk & E & -> & Hc).
    - exfalso. destruct Hc as (r0 & _ & Hv). rewrite app_nil_r in Hv. apply run_K in Hv; auto. lia.
    - symmetry in E. apply app_eq_nil in E as [-> E]. simpl. destruct (complete_rule _ _ _ Hc Hk Hr) as [Hin Hreach].
      assert (Hnull : null [NT (r_lhs r)]) by (apply null_rule; auto; rewrite E; constructor). revert Hnull. clear - IH Hn He Hlf.
      generalize (NT (r_lhs r)). intros X. induction (up_wf X) as [X _ IHX]. intros HX. apply acc_cons; [|constructor|].
      + rewrite <- app_assoc. apply IH; [rewrite app_length; simpl; lia|apply null_app; auto].
      + intros Y HY. apply IHX; auto. destruct HY as (r1 & b & H1 & H2 & -> & H4 & H5). apply null_rule; auto. rewrite H4.
        change (X :: b) with ([X] ++ b). apply null_app. auto.
  Qed.
  Lemma acc_above g : Acc (uab g) [].
  Proof. rewrite <- (app_nil_r g). apply (acc_empty (S K)); [simpl; lia|constructor]. Qed.

  Lemma acc_all m : forall g, length g <= m -> Acc (uab []) g.
  Proof.
    induction m as [|m IH]; intros g Hg.
    - destruct g; [|simpl in Hg; lia]. apply acc_above.
    - destruct g as [|X g _] using rev_ind; [apply acc_above|]. rewrite app_length in Hg. simpl in Hg.
      assert (G : forall X u, Acc (uab (g ++ [X])) u -> null u -> Acc (uab []) (g ++ X :: u)).
      { clear X. intros X. induction (up_wf X) as [X _ IHX]. intros u Hu. induction Hu as [u _ IHu]. intros Hnu.
        constructor. intros u2 (d & k & r & Hr & Hk & E & -> & Hc). simpl in Hc. destruct (complete_rule _ _ _ Hc Hk Hr) as [Hin Hreach].
        destruct (Nat.lt_trichotomy (length d) (length g)) as [Hl|[Hl|Hl]].
        - apply IH. rewrite app_length. simpl. lia.
        - symmetry in E. apply app_tails in E as [-> E].
          + apply (IHX (NT (r_lhs r))); [|apply acc_above|constructor]. exists r, u. auto.
          + apply (f_equal (@length sym)) in E. rewrite !app_length in E. lia.
        - assert (Ed : exists d', d = g ++ X :: d' /\ u = d' ++ r_rhs r).
          { assert (E0 : firstn (length g) d = g).
            { apply (f_equal (firstn (length g))) in E. rewrite !firstn_app, Nat.sub_diag, firstn_all in E. replace (length g - length d) with 0 in E by lia.
              simpl in E. rewrite !app_nil_r in E. auto. }
            rewrite <- (firstn_skipn (length g) d), E0 in E. rewrite <- app_assoc in E. apply app_inv_head in E.
            rewrite <- (firstn_skipn (length g) d), E0. destruct (skipn (length g) d) as [|Z d'] eqn:Es.
            - apply (f_equal (@length sym)) in Es. rewrite skipn_length in Es. simpl in Es. lia.
            - simpl in E. injection E as <- ->. exists d'. auto. }
          destruct Ed as (d' & -> & ->). rewrite <- app_assoc. simpl. apply IHu.
          + exists d', k, r. rewrite <- !app_assoc in *. simpl in *. auto.
          + apply null_app in Hnu as [Hu1 Hu2]. apply null_app. split; auto. apply null_rule; auto. }
      apply G; [apply acc_above|constructor].
  Qed.

  Theorem loop_free_wf : well_founded (rstep rules start ss t).
  Proof.
    intros g. pose proof (acc_all _ g (le_n _)) as Ha. induction Ha as [g _ IH]. constructor. intros g1 (_ & d & k & r & H1 & H2 & H3 & H4 & H5).
    apply IH. exists d, k, r. auto 10.
  Qed.
End Loop.
