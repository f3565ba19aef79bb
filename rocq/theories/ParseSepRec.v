(** * What [parse] does with separated lists that recover from wrong items *)
From Coq Require Import List Arith Lia Bool Sorted.
From Verif Require Import Lib Grammar LrModel LrSpec LrSets LrStates LrNew LrTop LrMono ParseModel Trees ParseSpec ParseInv ParseComplete GramFacts ParseTerm ParseTop ParseMore ParseCover ParseRecTerm ParseAmb PropParse PropRecover SkipSpec ParseSkip StmtSpec SepRecSpec.
Import ListNotations.

Section SepRun.
  Context {N T E : Type} (tix : T -> nat).
  Variables (base : list (crule N T E)) (X R semi : nat) (g1 g2 g3 : reducer N T E).
  Let s := rec_list base X R semi g1 g2 g3.
  Hypothesis Hb : statement_rules base X R semi.
  Variables (P : parser N T E) (ss : nat) (w : list T).
  Hypothesis Hm : made s P [] ss.
  Hypothesis Hp : productive (gram s).
  Notation invat := (inv_at tix (gram s) (sx_start s) ss P w).
  Notation step := (parse_step tix P).
  Let p := pr_tab P.
  Let rs := augment (gram s) (sx_start s) ss.
  Let sr := length (gram s).
  Let nb := length base.
  Let B := map cr_rule base.
  Let Hcan : canonical rs sr p := md_can _ _ _ _ Hm.
  Notation Semi := (TM (TSym semi)).
  Let r1 := mk_rule R [NT X; Semi; NT R].
  Let r2 := mk_rule R [TM TErr; Semi; NT R].
  Let r3 := mk_rule R [NT X].

  Lemma gram_eq : gram s = B ++ [r1; r2; r3].
  Proof. unfold gram, s, rec_list. cbn [sx_rules]. rewrite map_app. reflexivity. Qed.
  Lemma B_len : length B = nb.
  Proof. apply map_length. Qed.
  Lemma sr_eq : sr = nb + 3.
  Proof. unfold sr. rewrite gram_eq, app_length, B_len. reflexivity. Qed.
  Lemma rs_eq : rs = B ++ [r1; r2; r3; mk_rule ss [NT R]].
  Proof. unfold rs, augment. rewrite gram_eq, <- app_assoc. reflexivity. Qed.
  Lemma nth_rs k : nth_error rs k = if k <? nb then nth_error B k else nth_error [r1; r2; r3; mk_rule ss [NT R]] (k - nb).
  Proof.
    rewrite rs_eq. destruct (Nat.ltb_spec k nb) as [H|H]; [rewrite nth_error_app1|rewrite nth_error_app2]; rewrite ?B_len; auto.
  Qed.
  Lemma nth_base k : k < nb -> nth_error rs k = nth_error B k.
  Proof. intros H. rewrite nth_rs, (proj2 (Nat.ltb_lt _ _) H). auto. Qed.
  Lemma nth_r j : nth_error rs (nb + j) = nth_error [r1; r2; r3; mk_rule ss [NT R]] j.
  Proof. rewrite nth_rs, (proj2 (Nat.ltb_ge _ _)) by lia. f_equal. lia. Qed.
  Lemma nth_sr : nth_error rs sr = Some (mk_rule ss [NT R]).
  Proof. exact (augment_start (gram s) (sx_start s) ss). Qed.
  Lemma nth_list k r : nth_error rs k = Some r -> r_lhs r = R -> r_lhs r <> ss -> nb <= k -> (k = nb /\ r = r1) \/ (k = nb + 1 /\ r = r2) \/ (k = nb + 2 /\ r = r3).
  Proof.
    intros H1 H2 H3 H4. replace k with (nb + (k - nb)) in H1 by lia. rewrite nth_r in H1. remember (k - nb) as j. assert (Ek : k = nb + j) by lia.
    destruct j as [|[|[|[|j]]]]; simpl in H1; try discriminate; [injection H1 as <-..|destruct j; discriminate].
    - left. split; [lia|auto].
    - right. left. split; [lia|auto].
    - right. right. split; [lia|auto].
    - simpl in H3. congruence.
  Qed.
  Lemma B_In r : In r B -> r_lhs r <> R /\ r_rhs r <> [] /\ ~ In (NT R) (r_rhs r) /\ ~ In Semi (r_rhs r) /\ ~ In (TM TErr) (r_rhs r).
  Proof. intros H. apply in_map_iff in H as (c & <- & Hc). apply Hb. auto. Qed.
  Lemma B_gram r : In r B -> In r (gram s).
  Proof. rewrite gram_eq. intros H. apply in_or_app. auto. Qed.
  Lemma R_ss : R <> ss.
  Proof.
    intros E0. apply (md_fresh _ _ _ _ Hm). apply nonterminals_spec. exists r3. split; [rewrite gram_eq; apply in_or_app; right; simpl; auto|auto].
  Qed.
  Lemma rhs_not_ss r : In r (gram s) -> ~ In (NT ss) (r_rhs r).
  Proof. apply ss_rhs. exact (md_fresh _ _ _ _ Hm). Qed.

  (** the symbols of the statements *)
  Definition base_sym (Y : sym) : Prop := Y = NT X \/ exists r, In r B /\ In Y (r_rhs r).
  Lemma base_not Y : base_sym Y -> Y <> NT R /\ Y <> Semi /\ Y <> TM TErr /\ Y <> TM TEoi /\ Y <> NT ss.
  Proof.
    intros [->|(r & Hr & HY)].
    - repeat split; try discriminate.
      + intros H. injection H as H. apply Hb. auto.
      + intros H. apply (rhs_not_ss r1); [rewrite gram_eq; apply in_or_app; right; simpl; auto|]. simpl. left. congruence.
    - destruct (B_In r Hr) as (_ & _ & H1 & H2 & H3). repeat split; intros ->; try tauto.
      + eapply (md_eoi _ _ _ _ Hm); eauto. apply B_gram. auto.
      + eapply rhs_not_ss; eauto. apply B_gram. auto.
  Qed.
  Lemma base_rule k r : nth_error rs k = Some r -> base_sym (NT (r_lhs r)) -> k < nb /\ In r B.
  Proof.
    intros Hk HY. apply base_not in HY as (H1 & _ & _ & _ & H2). rewrite nth_rs in Hk. destruct (Nat.ltb_spec k nb) as [H|H].
    - split; auto. eapply nth_error_In; eauto.
    - exfalso. destruct (k - nb) as [|[|[|[|j]]]]; simpl in Hk; try discriminate; try (injection Hk as <-; simpl in *; congruence). destruct j; discriminate.
  Qed.
  Lemma rule_base k r : k < nb -> nth_error rs k = Some r -> In r B.
  Proof. intros H Hk. rewrite nth_base in Hk by auto. eapply nth_error_In; eauto. Qed.

  (** complete statements and reported ones *)
  Inductive bd : list sym -> Prop :=
  | bd_nil : bd []
  | bd_stmt g : bd g -> bd (g ++ [NT X; Semi])
  | bd_err g : bd g -> bd (g ++ [TM TErr; Semi]).
  Lemma bd_last g g' Y : bd g -> g = g' ++ [Y] -> Y = Semi.
  Proof.
    intros H E0. destruct H as [|g H|g H].
    - destruct g'; discriminate.
    - change [NT X; Semi] with ([NT X] ++ [Semi]) in E0. rewrite app_assoc in E0. apply app_inj_tail in E0. intuition.
    - change [TM TErr; Semi] with ([TM TErr] ++ [Semi]) in E0. rewrite app_assoc in E0. apply app_inj_tail in E0. intuition.
  Qed.
  Lemma bd_split g d : forall g' d', bd g -> bd g' -> Forall (fun Y => Y <> Semi) d -> Forall (fun Y => Y <> Semi) d' -> g ++ d = g' ++ d' -> g = g' /\ d = d'.
  Proof.
    induction d as [|Y d IH] using rev_ind; intros g' d' Hg Hg' Hd Hd' E0.
    - rewrite app_nil_r in E0. destruct d' as [|Y' d' _] using rev_ind; [rewrite app_nil_r in E0; auto|].
      rewrite app_assoc in E0. pose proof (bd_last _ _ _ Hg E0) as ->. apply Forall_app in Hd' as [_ Hd']. inversion Hd'; congruence.
    - apply Forall_app in Hd as [Hd HY]. inversion HY as [|? ? HY' _]; subst.
      destruct d' as [|Y' d' _] using rev_ind.
      + rewrite app_nil_r, app_assoc in E0. symmetry in E0. pose proof (bd_last _ _ _ Hg' E0). congruence.
      + rewrite !app_assoc in E0. apply app_inj_tail in E0 as [E0 ->]. apply Forall_app in Hd' as [Hd' _]. destruct (IH g' d') as [-> ->]; auto.
  Qed.
  Lemma base_nosemi d : Forall base_sym d -> Forall (fun Y => Y <> Semi) d.
  Proof. apply Forall_impl. intros Y HY. apply base_not in HY. tauto. Qed.

  (** the valid items *)
  Definition item_class (g : list sym) (it : item) : Prop :=
    (i_rule it = sr /\ (g = [] \/ g = [NT R])) \/
    (exists gm, bd gm /\
      ((exists r, In r [r1; r2; r3] /\ nb <= i_rule it < sr /\ nth_error rs (i_rule it) = Some r /\ i_la it = TEoi /\ i_pos it <= length (r_rhs r) /\ g = gm ++ firstn (i_pos it) (r_rhs r)) \/
       (exists d, g = gm ++ d /\ Forall base_sym d /\ i_rule it < nb /\ (i_pos it <> 0 -> d <> []) /\
          (d = [] -> forall r t, nth_error rs (i_rule it) = Some r -> firsts rs (r_rhs r) t -> firsts rs [NT X] t)))).

  Lemma firsts_eoi t : firsts rs [TM TEoi] t -> t = TEoi.
  Proof. intros H. apply firsts_firstl in H. inversion H; subst; auto. match goal with H : firstl _ [] _ |- _ => inversion H end. Qed.
  Lemma firsts_NT r l t : In r rs -> firsts rs (r_rhs r) t -> firsts rs (NT (r_lhs r) :: l) t.
  Proof. intros Hr Hf. apply firsts_firstl. apply firsts_firstl in Hf. constructor; auto. Qed.

  Lemma start_la g it : valid rs sr g it -> i_rule it = sr -> i_la it = TEoi.
  Proof.
    induction 1 as [|g k q b r Y H IH Hr HY|g k q b r A k' r' t H IH Hr HA Hr' Hl Hf]; cbn [i_rule i_la] in *; intros E0; auto.
    exfalso. subst k'. rewrite nth_sr in Hr'. injection Hr' as <-. cbn [r_lhs] in Hl. subst A.
    destruct (Nat.eq_dec k sr) as [->|Hk].
    - rewrite nth_sr in Hr. injection Hr as <-. cbn [r_rhs] in HA. destruct q as [|q]; [|destruct q; discriminate]. cbn [nth_error] in HA. injection HA as HA. exact (R_ss HA).
    - unfold rs in Hr. rewrite augment_old in Hr by auto. eapply rhs_not_ss; [eapply nth_error_In; exact Hr|eapply nth_error_In; exact HA].
  Qed.
  Lemma items g it : valid rs sr g it -> item_class g it.
  Proof.
    induction 1 as [|g k q b r Y H IH Hr HY|g k q b r A k' r' t H IH Hr HA Hr' Hl Hf]; unfold item_class in *; cbn [i_rule i_pos i_la] in *.
    - left. auto.
    - destruct IH as [[-> Hg]|(gm & Hgm & [(r0 & Hin & Hk & Hr0 & Hla & Hq & ->)|(d & -> & Hd & Hk & Hne & Hfi)])].
      + left. split; auto. right. assert (Er : r = mk_rule ss [NT R]) by (rewrite nth_sr in Hr; congruence). subst r. simpl in HY.
        assert (Hg' : g = firstn q [NT R]) by (apply (start_items _ _ _ (md_fresh _ _ _ _ Hm) _ _ H eq_refl)).
        destruct q as [|q]; [|destruct q; discriminate]. simpl in *. subst g. injection HY as <-. reflexivity.
      + right. exists gm. split; auto. left. exists r0. assert (r0 = r) by congruence. subst r0. split; auto. split; auto. split; auto. split; auto. split; [apply nth_error_Some_lt in HY; lia|].
        rewrite <- app_assoc. f_equal. clear - HY. revert q HY. induction (r_rhs r) as [|Z l IH]; intros [|q] HY; simpl in *; try discriminate; [congruence|f_equal; auto].
      + right. exists gm. split; auto. right. exists (d ++ [Y]). rewrite app_assoc. split; auto. split; [apply Forall_app; split; auto; constructor; [|constructor]; right; exists r; split; [eapply rule_base; eauto|eapply nth_error_In; eauto]|].
        split; auto. split; [intros _; destruct d; discriminate|]. intros E0. destruct d; discriminate.
    - destruct IH as [[-> Hg]|(gm & Hgm & [(r0 & Hin & Hk & Hr0 & Hla & Hq & ->)|(d & -> & Hd & Hk & Hne & Hfi)])].
      + assert (Er : r = mk_rule ss [NT R]) by (rewrite nth_sr in Hr; congruence). subst r. simpl in HA.
        assert (Hg' : g = firstn q [NT R]) by (apply (start_items _ _ _ (md_fresh _ _ _ _ Hm) _ _ H eq_refl)).
        destruct q as [|q]; [|destruct q; discriminate]. simpl in *. injection HA as <-. subst g.
        assert (Hb' : b = TEoi) by (apply (start_la _ _ H eq_refl)).
        subst b. apply firsts_eoi in Hf. subst t. right. exists []. split; [constructor|]. left. exists r'.
        assert (Hnb : nb <= k'). { destruct (Nat.lt_ge_cases k' nb) as [Hlt|]; auto. exfalso. apply (rule_base _ _ Hlt) in Hr'. apply B_In in Hr'. tauto. }
        assert (Hss : r_lhs r' <> ss) by (rewrite Hl; exact R_ss). pose proof sr_eq. rewrite app_nil_l.
        destruct (nth_list k' r' Hr' Hl Hss Hnb) as [[-> ->]|[[-> ->]|[-> ->]]]; simpl; repeat split; auto; lia.
      + assert (r0 = r) by congruence. subst r0.
        assert (Hcase : (q = 0 /\ A = X) \/ (A = R /\ skipn (S q) (r_rhs r) = [] /\ bd (gm ++ firstn q (r_rhs r)))).
        { destruct Hin as [<-|[<-|[<-|[]]]].
          - destruct q as [|[|[|q]]]; cbn in HA; [injection HA as <-; left; auto|discriminate|injection HA as <-; right; split; auto; split; auto; simpl; constructor; auto|destruct q; discriminate].
          - destruct q as [|[|[|q]]]; cbn in HA; [discriminate|discriminate|injection HA as <-; right; split; auto; split; auto; simpl; constructor; auto|destruct q; discriminate].
          - destruct q as [|q]; [injection HA as <-; left; auto|destruct q; discriminate]. }
        right. destruct Hcase as [(-> & ->)|(-> & Hsk & Hbd)].
        * assert (HX : base_sym (NT (r_lhs r'))) by (left; congruence). destruct (base_rule _ _ Hr' HX) as [Hk' Hin']. exists gm. split; auto. right. exists []. simpl. split; auto. split; auto. split; auto.
          split; [tauto|].
          intros _ r0 t0 E0 Hf0. assert (r0 = r') by congruence. subst r0. rewrite <- Hl. apply firsts_NT; auto. eapply nth_error_In; eauto.
        * rewrite Hsk in Hf. simpl in Hf. rewrite Hla in Hf. apply firsts_eoi in Hf. exists (gm ++ firstn q (r_rhs r)). split; auto. left. exists r'.
          assert (Hnb : nb <= k'). { destruct (Nat.lt_ge_cases k' nb) as [Hlt|]; auto. exfalso. apply (rule_base _ _ Hlt) in Hr'. apply B_In in Hr'. tauto. }
          assert (Hss : r_lhs r' <> ss) by (rewrite Hl; exact R_ss). pose proof sr_eq. simpl firstn. rewrite app_nil_r.
          destruct (nth_list k' r' Hr' Hl Hss Hnb) as [[-> ->]|[[-> ->]|[-> ->]]]; simpl; repeat split; auto; lia.
      + right. assert (HinB : In r B) by (eapply rule_base; eauto). assert (HY : base_sym (NT (r_lhs r'))) by (right; exists r; split; auto; rewrite Hl; eapply nth_error_In; eauto).
        destruct (base_rule _ _ Hr' HY) as [Hk' Hin']. exists gm. split; auto. right. exists d. split; auto. split; auto. split; auto. split; [tauto|].
        intros -> r0 t0 E0 Hf0. assert (r0 = r') by congruence. subst r0. assert (q = 0) by (destruct q; auto; exfalso; apply Hne; auto). subst q.
          apply (Hfi eq_refl r t0 Hr). destruct (r_rhs r) as [|Z l]; [discriminate|]. simpl in HA. injection HA as ->. subst A. apply firsts_NT; auto. eapply nth_error_In; eauto.
  Qed.

  Lemma bd_valid g : bd g -> forall j, j < 3 -> valid rs sr g (mk_item (nb + j) 0 TEoi).
  Proof.
    assert (Hcl : forall g0 k q r, valid rs sr g0 (mk_item k q TEoi) -> nth_error rs k = Some r -> nth_error (r_rhs r) q = Some (NT R) -> skipn (S q) (r_rhs r) = [] ->
        forall j, j < 3 -> valid rs sr g0 (mk_item (nb + j) 0 TEoi)).
    { intros g0 k q r Hv Hr Hq Hs j Hj. destruct (nth_error rs (nb + j)) as [r'|] eqn:Er; [|apply nth_error_None in Er; rewrite rs_eq, app_length, B_len in Er; simpl in Er; lia].
      eapply valid_closure; eauto.
      - rewrite nth_r in Er. destruct j as [|[|[|j]]]; [..|lia]; cbn in Er; injection Er as <-; reflexivity.
      - rewrite Hs. exists []. constructor. }
    induction 1 as [|g Hg IH|g Hg IH].
    - eapply Hcl; [constructor|exact nth_sr|reflexivity|reflexivity].
    - specialize (IH 0 ltac:(lia)). rewrite Nat.add_0_r in IH. assert (Hr : nth_error rs nb = Some r1) by (rewrite <- (Nat.add_0_r nb), nth_r; reflexivity).
      eapply (Hcl _ nb 2 r1); auto. exact (valid_adv _ _ _ _ _ _ _ IH Hr 2 ltac:(simpl; lia)).
    - specialize (IH 1 ltac:(lia)). assert (Hr : nth_error rs (nb + 1) = Some r2) by (rewrite nth_r; reflexivity).
      eapply (Hcl _ (nb + 1) 2 r2); auto. exact (valid_adv _ _ _ _ _ _ _ IH Hr 2 ltac:(simpl; lia)).
  Qed.

  Lemma wants_semi g d : bd g -> Forall base_sym d -> wants rs sr (g ++ d) Semi -> d = [NT X].
  Proof.
    intros Hg Hd (k & q & b & r & Hv & Hr & Hq). apply items in Hv as [[Hk _]|(gm & Hgm & [(r0 & Hin & Hk & Hr0 & Hla & Hq0 & E0)|(d0 & E0 & Hd0 & Hk & _)])]; cbn [i_rule i_pos i_la] in *.
    - subst k. rewrite nth_sr in Hr. injection Hr as <-. destruct q as [|q]; [discriminate|destruct q; discriminate].
    - assert (r0 = r) by congruence. subst r0. destruct Hin as [<-|[<-|[<-|[]]]].
      + assert (q = 1) by (destruct q as [|[|[|q]]]; cbn in Hq; try discriminate; auto; destruct q; discriminate). subst q. cbn in E0.
        apply bd_split in E0; auto; [tauto|apply base_nosemi; auto|repeat constructor; discriminate].
      + assert (q = 1) by (destruct q as [|[|[|q]]]; cbn in Hq; try discriminate; auto; destruct q; discriminate). subst q. cbn in E0.
        apply bd_split in E0; auto; [|apply base_nosemi; auto|repeat constructor; discriminate]. destruct E0 as [_ ->]. inversion Hd as [|? ? HY _]. apply base_not in HY. tauto.
      + exfalso. destruct q as [|q]; [discriminate|destruct q; discriminate].
    - exfalso. apply (rule_base _ _ Hk) in Hr. apply B_In in Hr. apply nth_error_In in Hq. tauto.
  Qed.
  Lemma wants_err g d k q b r : bd g -> Forall base_sym d -> valid rs sr (g ++ d) (mk_item k q b) -> nth_error rs k = Some r -> nth_error (r_rhs r) q = Some (TM TErr) -> d = [] /\ k = nb + 1.
  Proof.
    intros Hg Hd Hv Hr Hq. apply items in Hv as [[Hk _]|(gm & Hgm & [(r0 & Hin & Hk & Hr0 & Hla & Hq0 & E0)|(d0 & E0 & Hd0 & Hk & _)])]; cbn [i_rule i_pos i_la] in *.
    - subst k. rewrite nth_sr in Hr. injection Hr as <-. destruct q as [|q]; [discriminate|destruct q; discriminate].
    - assert (r0 = r) by congruence. subst r0. destruct Hin as [<-|[<-|[<-|[]]]].
      + exfalso. destruct q as [|[|[|q]]]; cbn in Hq; try discriminate. destruct q; discriminate.
      + assert (q = 0) by (destruct q as [|[|[|q]]]; cbn in Hq; try discriminate; auto; destruct q; discriminate). subst q. cbn in E0.
        apply bd_split in E0; auto; [|apply base_nosemi; auto]. split; [tauto|]. rewrite sr_eq in Hk. replace k with (nb + (k - nb)) in Hr by lia. rewrite nth_r in Hr.
        destruct (k - nb) as [|[|[|j]]] eqn:Ej; cbn in Hr; try discriminate; lia.
      + exfalso. destruct q as [|q]; [discriminate|destruct q; discriminate].
    - exfalso. apply (rule_base _ _ Hk) in Hr. apply B_In in Hr. apply nth_error_In in Hq. tauto.
  Qed.
  Lemma complete_cases g d k t : bd g -> Forall base_sym d -> k <> sr -> complete rs sr (g ++ d) k t ->
    (k = nb + 2 /\ d = [NT X] /\ t = TEoi) \/ (k < nb /\ exists r d1, nth_error rs k = Some r /\ d = d1 ++ r_rhs r /\ Forall base_sym d1).
  Proof.
    intros Hg Hd Hk Hc. destruct (complete_split rs sr _ k t (ex_intro _ _ nth_sr) Hc Hk) as (r & dd & Hr & E0 & _ & Hv0).
    apply items in Hv0 as [[Hk' _]|(gm & Hgm & [(r0 & Hin & Hk' & Hr0 & Hla & Hq0 & E1)|(d0 & E1 & Hd0 & Hk' & _)])]; cbn [i_rule i_pos i_la] in *.
    - congruence.
    - left. assert (r0 = r) by congruence. subst r0. rewrite app_nil_r in E1. subst dd.
      assert (Hnl : r <> r3 -> False).
      { intros Hne. assert (exists l, g ++ d = l ++ [NT R]) as [l El].
        { destruct Hin as [<-|[<-|[<-|[]]]]; cbn in E0; [exists (gm ++ [NT X; Semi])|exists (gm ++ [TM TErr; Semi])|congruence]; rewrite E0, <- app_assoc; reflexivity. }
        destruct d as [|Y d _] using rev_ind.
        - rewrite app_nil_r in El. pose proof (bd_last _ _ _ Hg El). discriminate.
        - rewrite app_assoc in El. apply app_inj_tail in El as [_ ->]. apply Forall_app in Hd as [_ Hd]. inversion Hd as [|? ? HY _]. apply base_not in HY. tauto. }
      destruct Hin as [<-|[<-|[<-|[]]]]; try (exfalso; apply Hnl; discriminate). cbn in E0. apply bd_split in E0; auto; [|apply base_nosemi; auto|repeat constructor; discriminate].
      split; [|tauto]. rewrite sr_eq in Hk'. replace k with (nb + (k - nb)) in Hr by lia. rewrite nth_r in Hr. destruct (k - nb) as [|[|[|j]]] eqn:Ej; cbn in Hr; try discriminate; lia.
    - right. split; auto. exists r, d0. split; auto. subst dd. rewrite <- app_assoc in E0. apply bd_split in E0; auto; [tauto|apply base_nosemi; auto|].
      apply base_nosemi. apply Forall_app. split; auto. apply Forall_forall. intros Y HY. right. exists r. split; auto. eapply rule_base; eauto.
  Qed.
  Lemma no_accept g d : bd g -> Forall base_sym d -> ~ accepting rs sr (g ++ d).
  Proof.
    intros Hg Hd Ha. apply (accepting_g _ _ _ (md_fresh _ _ _ _ Hm)) in Ha. change [NT (sx_start s)] with ([] ++ [NT R]) in Ha.
    destruct d as [|Y d _] using rev_ind.
    - rewrite app_nil_r in Ha. pose proof (bd_last _ _ _ Hg Ha). discriminate.
    - rewrite app_assoc in Ha. apply app_inj_tail in Ha as [_ ->]. apply Forall_app in Hd as [_ Hd]. inversion Hd as [|? ? HY _]. apply base_not in HY. tauto.
  Qed.
  Lemma wants_base g d t : bd g -> Forall base_sym d -> wants rs sr (g ++ d) (TM t) -> t <> TErr -> t <> TSym semi -> base_sym (TM t) /\ (d = [] -> firsts rs [NT X] t).
  Proof.
    intros Hg Hd (k & q & b & r & Hv & Hr & Hq) H1 H2. apply items in Hv as [[Hk _]|(gm & Hgm & [(r0 & Hin & Hk & Hr0 & Hla & Hq0 & E0)|(d0 & E0 & Hd0 & Hk & Hne & Hfi)])]; cbn [i_rule i_pos i_la] in *.
    - subst k. rewrite nth_sr in Hr. injection Hr as <-. destruct q as [|q]; [discriminate|destruct q; discriminate].
    - exfalso. assert (r0 = r) by congruence. subst r0.
      destruct Hin as [<-|[<-|[<-|[]]]]; (destruct q as [|[|[|q]]]; cbn in Hq; try discriminate; try (injection Hq as <-; congruence); destruct q; discriminate).
    - split; [right; exists r; split; [eapply rule_base; eauto|eapply nth_error_In; eauto]|]. intros ->. assert (Ed : g = gm /\ [] = d0) by (apply bd_split; auto; apply base_nosemi; auto). destruct Ed as [_ <-].
      assert (q = 0) by (destruct q; auto; exfalso; apply Hne; auto). subst q. apply (Hfi eq_refl r t Hr). destruct (r_rhs r) as [|Z l]; [discriminate|]. cbn in Hq. injection Hq as ->.
      exists l. constructor.
  Qed.

  (** the rules of the statements are all that derivations of their symbols use *)
  Lemma der_base : (forall Y u, der (gram s) Y u -> base_sym Y -> der B Y u) /\ (forall l u, ders (gram s) l u -> Forall base_sym l -> ders B l u).
  Proof.
    apply der_ders_ind.
    - intros t _. constructor.
    - intros r u Hr _ IH HY. assert (Hin : In r B).
      { rewrite gram_eq in Hr. apply in_app_or in Hr as [Hr|Hr]; auto. exfalso. apply base_not in HY. destruct Hr as [<-|[<-|[<-|[]]]]; cbn in HY; tauto. }
      constructor; auto. apply IH. apply Forall_forall. intros Z HZ. right. eauto.
    - constructor.
    - intros Y l u v _ IH1 _ IH2 HF. inversion HF; subst. constructor; auto.
  Qed.
  Lemma der_gram Y u : der B Y u -> der (gram s) Y u.
  Proof. apply der_incl. intros r Hr. apply B_gram. auto. Qed.
  Lemma X_base : base_sym (NT X).
  Proof. left. auto. Qed.
  Lemma firsts_begin x : firsts rs [NT X] (TSym (tix x)) -> can_begin tix base X x.
  Proof.
    intros Hf. apply firsts_firstl in Hf. assert (Hin : In r1 (gram s)) by (rewrite gram_eq; apply in_or_app; simpl; auto).
    destruct (firstl_word _ _ _ (md_fresh _ _ _ _ Hm) _ _ Hp Hf) as [z Hz].
    - pose proof (prod_ok _ _ (md_fresh _ _ _ _ Hm) r1 Hp Hin) as H. inversion H. constructor; auto.
    - exists z. apply (proj1 (ders_one _ _ _)) in Hz. apply der_base; auto. apply X_base.
  Qed.
  Lemma stmt_star g u v : bd g -> der B (NT X) u -> fst_of v TEoi = TSym semi \/ fst_of v TEoi = TEoi -> astar (gram s) (sx_start s) ss (g, u ++ v) (g ++ [NT X], v).
  Proof.
    intros Hg Hd [Hv|Hv].
    - eapply (proj1 (machine_complete (gram s) (sx_start s) ss) _ _ (der_gram _ _ Hd) g nb 0 TEoi r1 v).
      + pose proof (bd_valid g Hg 0 ltac:(lia)) as H. rewrite Nat.add_0_r in H. exact H.
      + fold rs. rewrite <- (Nat.add_0_r nb), nth_r. reflexivity.
      + reflexivity.
      + rewrite Hv. exists [NT R; TM TEoi]. constructor.
    - eapply (proj1 (machine_complete (gram s) (sx_start s) ss) _ _ (der_gram _ _ Hd) g (nb + 2) 0 TEoi r3 v).
      + exact (bd_valid g Hg 2 ltac:(lia)).
      + fold rs. rewrite nth_r. reflexivity.
      + reflexivity.
      + rewrite Hv. exists []. constructor.
  Qed.
  Lemma begin_decides g x : bd g -> can_begin tix base X x -> ~ decides rs sr p g (TSym (tix x)) None.
  Proof.
    intros Hg [z Hz] Hd. pose proof (stmt_star g _ [TSym semi] Hg Hz (or_introl eq_refl)) as Ha.
    assert (Hn : forall c c', astar (gram s) (sx_start s) ss c c' -> c = c' \/ exists c1, astep (gram s) (sx_start s) ss c c1) by (intros c c' []; eauto).
    apply Hn in Ha as [Ha|[c1 Ha]].
    - injection Ha as Ha _. apply (f_equal (@length _)) in Ha. rewrite app_length in Ha. simpl in Ha. lia.
    - eapply (stuck_step (gram s) (sx_start s) ss P g); [|exact Ha]. exact Hd.
  Qed.
  Lemma end_decides g d0 : bd g -> decides rs sr p g TEoi d0 -> d0 = None.
  Proof.
    intros Hg Hd. rewrite <- (app_nil_r g) in Hd. destruct d0 as [[q|k|]|]; cbn in Hd; auto; exfalso.
    - destruct Hd as [Hw _]. apply (wants_base _ _ _ Hg (Forall_nil _)) in Hw as [Hw _]; try discriminate. apply base_not in Hw. tauto.
    - destruct Hd as (_ & _ & Hk & Hc & _). apply (complete_cases _ _ _ _ Hg (Forall_nil _) Hk) in Hc as [(_ & Hc & _)|(Hkb & r & d1 & Hr & E0 & _)]; [discriminate|].
      apply (rule_base _ _ Hkb) in Hr. apply B_In in Hr. symmetry in E0. apply app_eq_nil in E0. tauto.
    - destruct Hd as (_ & _ & Ha). exact (no_accept g [] Hg (Forall_nil _) Ha).
  Qed.

  (** ** The trees of statements *)
  Lemma app_seq (l1 l2 : list nat) a n : l1 ++ l2 = seq a n -> l1 = seq a (length l1) /\ l2 = seq (a + length l1) (n - length l1) /\ length l1 <= n.
  Proof.
    revert a n. induction l1 as [|x l1 IH]; intros a n E0; simpl in *.
    - rewrite Nat.add_0_r, Nat.sub_0_r. repeat split; auto. lia.
    - destruct n as [|n]; [discriminate|]. simpl in E0. injection E0 as -> E0. destruct (IH _ _ E0) as (H1 & H2 & H3).
      split; [f_equal; auto|]. split; [|lia]. rewrite H2. simpl. f_equal; lia.
  Qed.
  Lemma firstn_plus {A} n m (l : list A) : firstn (n + m) l = firstn n l ++ firstn m (skipn n l).
  Proof. revert l. induction n as [|n IH]; intros [|x l]; simpl; auto; [destruct m; auto|]. rewrite IH. auto. Qed.
  Lemma skipn_plus {A} a b (l : list A) : skipn a (skipn b l) = skipn (b + a) l.
  Proof. revert l. induction b as [|b IH]; intros l; [auto|]. destruct l; simpl; [destruct a; auto|apply IH]. Qed.
  Lemma cr_nth k r : nth_error rs k = Some r -> k < nb -> exists c, nth_error base k = Some c /\ cr_rule c = r /\ nth_error (pr_gens P) k = Some (cr_gen c).
  Proof.
    intros Hr Hk. rewrite (nth_base _ Hk) in Hr. unfold B in Hr. rewrite nth_error_map in Hr. destruct (nth_error base k) as [c|] eqn:Ec; [|discriminate].
    injection Hr as Hr. exists c. split; auto. split; auto. rewrite (md_gens _ _ _ _ Hm), nth_error_app1 by (unfold gens; rewrite map_length; unfold s, rec_list; cbn [sx_rules]; rewrite app_length; fold nb; lia).
    unfold gens, s, rec_list. cbn [sx_rules]. rewrite nth_error_map, nth_error_app1, Ec by auto. reflexivity.
  Qed.
  Lemma node_base k r : nth_error rs k = Some r -> base_sym (NT (r_lhs r)) -> Forall base_sym (r_rhs r).
  Proof. intros Hr Hs. apply Forall_forall. intros Y HY. right. exists r. split; auto. eapply base_rule; eauto. Qed.

  Lemma tree_value w0 : (forall Y t, twf tix rs w0 Y t -> base_sym Y -> forall pos n a, leaves t = seq pos n -> ev (pr_gens P) w0 t = GOk a -> value tix base Y (firstn n (skipn pos w0)) a) /\
    (forall l ts, twfs tix rs w0 l ts -> Forall base_sym l -> forall pos n args, flat_map leaves ts = seq pos n -> gmap (ev (pr_gens P) w0) ts = GOk args -> values tix base l (firstn n (skipn pos w0)) args).
  Proof.
    apply twf_twfs_ind.
    - intros i x Hx _ pos n a Hl He. simpl in Hl, He. destruct n as [|[|n]]; try discriminate. injection Hl as ->. rewrite Hx in He. injection He as <-.
      rewrite (skipn_cons _ _ _ Hx). simpl. constructor.
    - intros lo hi _ _ HY. apply base_not in HY. tauto.
    - intros k r ts Hr _ IH HY pos n a Hl He. destruct (base_rule _ _ Hr HY) as [Hk _]. destruct (cr_nth _ _ Hr Hk) as (c & Hc & <- & Hg). simpl in Hl, He.
      destruct (gmap _ ts) as [args| |] eqn:Eg; try discriminate. simpl in He. unfold call in He. rewrite Hg in He. destruct (cr_gen c args) as [v| |] eqn:Ec; try discriminate. simpl in He. injection He as <-.
      econstructor; eauto; [eapply nth_error_In; eauto|]. apply IH; auto. eapply node_base; eauto.
    - intros _ pos n args Hl He. simpl in *. destruct n; [|discriminate]. injection He as <-. constructor.
    - intros Y l t ts _ IH1 _ IH2 HF pos n args Hl He. inversion HF as [|? ? H1 H2]; subst. simpl in Hl, He. apply app_seq in Hl as (L1 & L2 & L3).
      destruct (ev _ _ t) as [a| |] eqn:Ea; try discriminate. simpl in He. destruct (gmap _ ts) as [args'| |] eqn:Eg; try discriminate. simpl in He. injection He as <-.
      replace n with (length (leaves t) + (n - length (leaves t))) by lia. rewrite firstn_plus, skipn_plus. constructor; auto.
  Qed.
  Lemma clean_base w0 : (forall Y t, twf tix rs w0 Y t -> base_sym Y -> clean t = true /\ leaves t <> []) /\
    (forall l ts, twfs tix rs w0 l ts -> Forall base_sym l -> forallb clean ts = true /\ (l <> [] -> flat_map leaves ts <> [])).
  Proof.
    apply twf_twfs_ind.
    - intros i x _ _. split; [auto|discriminate].
    - intros lo hi _ _ HY. apply base_not in HY. tauto.
    - intros k r ts Hr _ IH HY. destruct (IH (node_base _ _ Hr HY)) as [H1 H2]. simpl. split; auto. apply H2. destruct (base_rule _ _ Hr HY) as [_ Hin]. apply (B_In _ Hin).
    - intros _. split; auto.
    - intros Y l t ts _ IH1 _ IH2 HF. inversion HF as [|? ? H1 H2]; subst. destruct (IH1 H1) as [A1 A2], (IH2 H2) as [A3 A4]. simpl. rewrite A1, A3. split; auto.
      intros _ E0. apply app_eq_nil in E0. tauto.
  Qed.
  Lemma tok_slice w0 pos n : pos + n <= length w0 -> map (tok tix w0) (seq pos n) = kinds tix (firstn n (skipn pos w0)).
  Proof.
    revert pos. induction n as [|n IH]; intros pos Hl; auto. simpl. destruct (nth_error w0 pos) as [x|] eqn:Ex; [|apply nth_error_None in Ex; lia].
    rewrite (skipn_cons _ _ _ Ex). simpl. unfold tok at 1. rewrite Ex. f_equal. apply IH. lia.
  Qed.
  Lemma tree_stmt w0 t pos n : twf tix rs w0 (NT X) t -> leaves t = seq pos n -> pos + n <= length w0 -> is_stmt tix base X (firstn n (skipn pos w0)).
  Proof.
    intros Ht Hl Hn. destruct (proj1 (clean_base w0) _ _ Ht X_base) as [Hc _]. pose proof (proj1 (tree_der tix rs w0) _ _ Ht Hc) as Hd. rewrite Hl, tok_slice in Hd by auto.
    unfold is_stmt. apply der_base; [|apply X_base]. apply (proj1 (der_aug0 _ _ _ (md_fresh _ _ _ _ Hm))) in Hd; auto. apply (base_not _ X_base).
  Qed.

  Lemma value_tree : (forall Y u a, value tix base Y u a -> forall w0 pos, firstn (length u) (skipn pos w0) = u ->
      exists t, twf tix (gram s) w0 Y t /\ clean t = true /\ leaves t = seq pos (length u) /\ ev (pr_gens P) w0 t = GOk a) /\
    (forall l u args, values tix base l u args -> forall w0 pos, firstn (length u) (skipn pos w0) = u ->
      exists ts, twfs tix (gram s) w0 l ts /\ forallb clean ts = true /\ flat_map leaves ts = seq pos (length u) /\ gmap (ev (pr_gens P) w0) ts = GOk args).
  Proof.
    apply value_values_ind.
    - intros x w0 pos Hu. assert (Hx : nth_error w0 pos = Some x).
      { simpl in Hu. rewrite <- (Nat.add_0_r pos), <- nth_skip. destruct (skipn pos w0); [discriminate|]. simpl in Hu. injection Hu as ->. reflexivity. }
      exists (Leaf pos). split; [constructor; auto|]. split; auto. split; auto. simpl. rewrite Hx. auto.
    - intros c u args v Hc _ IH Hv w0 pos Hu. destruct (IH w0 pos Hu) as (ts & H1 & H2 & H3 & H4). apply In_nth_error in Hc as [k Hk]. exists (Node k ts).
      assert (Hkb : k < nb) by (apply nth_error_Some; congruence). assert (Hr : nth_error rs k = Some (cr_rule c)) by (rewrite nth_base by auto; unfold B; rewrite nth_error_map, Hk; auto).
      split; [constructor; auto; rewrite <- Hr; symmetry; apply augment_old; rewrite gram_eq, app_length, B_len; simpl; lia|]. split; auto. split; auto.
      destruct (cr_nth _ _ Hr Hkb) as (c' & Hc' & _ & Hg). assert (c' = c) by congruence. subst c'. simpl. rewrite H4. simpl. unfold call. rewrite Hg, Hv. auto.
    - intros w0 pos _. exists []. repeat split; auto. constructor.
    - intros Y l u u' a args _ IH1 _ IH2 w0 pos Hu. rewrite app_length, firstn_plus in Hu.
      assert (Hl : length (firstn (length u) (skipn pos w0)) = length u).
      { apply (f_equal (@length _)) in Hu. rewrite !app_length in Hu. pose proof (firstn_le_length (length u) (skipn pos w0)). pose proof (firstn_le_length (length u') (skipn (length u) (skipn pos w0))). lia. }
      assert (E1 : firstn (length u) (skipn pos w0) = u).
      { apply (f_equal (firstn (length u))) in Hu. rewrite !firstn_app, Hl, Nat.sub_diag in Hu. simpl in Hu. rewrite !app_nil_r, firstn_firstn, Nat.min_id, firstn_all in Hu. auto. }
      rewrite E1, skipn_plus in Hu. apply app_inv_head in Hu. destruct (IH1 _ _ E1) as (t & A1 & A2 & A3 & A4), (IH2 _ _ Hu) as (ts & B1 & B2 & B3 & B4).
      exists (t :: ts). split; [constructor; auto|]. simpl. rewrite A2, A3, A4, B2, B3, B4, app_length, seq_app. auto.
  Qed.

  Lemma rewr_tm (l l' : list sym) t : rewr (gram s) l l' -> In (TM t) l -> In (TM t) l'.
  Proof.
    induction 1 as [|l1 r l2 l' Hr H IH]; auto. intros Hin. apply IH. rewrite !in_app_iff in *. simpl in Hin. destruct Hin as [Hin|[Hin|Hin]]; auto. discriminate.
  Qed.
  Lemma rewr_base l l' : rewr (gram s) l l' -> Forall base_sym l -> Forall base_sym l'.
  Proof.
    induction 1 as [|l1 r l2 l' Hr H IH]; auto. intros HF. apply IH. apply Forall_app in HF as [F1 F2]. inversion F2 as [|? ? F3 F4]. apply Forall_app. split; auto. apply Forall_app. split; auto.
    assert (Hin : In r B).
    { rewrite gram_eq in Hr. apply in_app_or in Hr as [Hr|Hr]; auto. exfalso. apply base_not in F3. destruct Hr as [<-|[<-|[<-|[]]]]; cbn in F3; tauto. }
    apply Forall_forall. intros Z HZ. right. eauto.
  Qed.
  Lemma not_cyclic : ~ cyclic (gram s) (sx_start s).
  Proof.
    intros (r & Hr & Hl & Hw). change (r_lhs r = R) in Hl. change (sx_start s) with R in Hw. rewrite gram_eq in Hr. apply in_app_or in Hr as [Hr|Hr].
    - apply B_In in Hr. tauto.
    - destruct Hr as [<-|[<-|[<-|[]]]]; cbn [r_rhs r1 r2 r3] in Hw.
      + apply (rewr_tm _ _ (TSym semi)) in Hw; [|simpl; auto]. destruct Hw as [Hw|[]]; discriminate.
      + apply (rewr_tm _ _ (TSym semi)) in Hw; [|simpl; auto]. destruct Hw as [Hw|[]]; discriminate.
      + apply rewr_base in Hw; [|constructor; [apply X_base|constructor]]. inversion Hw as [|? ? HY _]. apply base_not in HY. tauto.
  Qed.
  Lemma gram_nth j : j < 3 -> nth_error (gram s) (nb + j) = nth_error [r1; r2; r3] j.
  Proof. intros Hj. rewrite gram_eq, nth_error_app2; rewrite B_len; [|lia]. f_equal. lia. Qed.
  Lemma value_unique u a1 a2 : value tix base (NT X) u a1 -> value tix base (NT X) u a2 -> a1 = a2.
  Proof.
    intros H1 H2. assert (Hu : firstn (length u) (skipn 0 u) = u) by (simpl; apply firstn_all).
    destruct (proj1 value_tree _ _ _ H1 u 0 Hu) as (t1 & A1 & A2 & A3 & A4), (proj1 value_tree _ _ _ H2 u 0 Hu) as (t2 & B1 & B2 & B3 & B4).
    assert (G : forall t, twf tix (gram s) u (NT X) t -> clean t = true -> leaves t = seq 0 (length u) -> proper_tree tix s u (Node (nb + 2) [t])).
    { intros t G1 G2 G3. split; [split|].
      - change (sx_start s) with (r_lhs r3). constructor; [rewrite gram_nth; [reflexivity|lia]|]. cbn [r_rhs r3]. constructor; auto. constructor.
      - simpl. rewrite G3, app_nil_r. auto.
      - simpl. rewrite G2. auto. }
    pose proof (unique_tree tix s P [] ss u Hm _ _ eq_refl not_cyclic (G _ A1 A2 A3) (G _ B1 B2 B3)) as E0. injection E0 as ->. congruence.
  Qed.

  (** ** Turns *)
  Definition rec_ok (st : pstate N T) : Prop := forall k, In k (ps_rec st) -> k = nb + 1.
  Lemma read_rec (st : pstate N T) : ps_rec (ps_read tix st) = ps_rec st.
  Proof. unfold ps_read. destruct (ps_buf st); auto. destruct (ps_iter st); auto. Qed.
  Lemma read_state (st : pstate N T) : ps_state (ps_read tix st) = ps_state st.
  Proof. unfold ps_read. destruct (ps_buf st); auto. destruct (ps_iter st); auto. Qed.
  Lemma err_rule k r : nth_error rs k = Some r -> In (TM TErr) (r_rhs r) -> k = nb + 1.
  Proof.
    intros Hr Hin. destruct (Nat.lt_ge_cases k nb) as [Hk|Hk].
    - apply (rule_base _ _ Hk) in Hr. apply B_In in Hr. tauto.
    - replace k with (nb + (k - nb)) in Hr by lia. rewrite nth_r in Hr. remember (k - nb) as j. assert (Ek : k = nb + j) by lia. clear Heqj.
      destruct j as [|[|[|[|j]]]]; cbn in Hr; try discriminate; try (injection Hr as <-; cbn in Hin); try lia; try (exfalso; intuition discriminate). destruct j; discriminate.
  Qed.
  Lemma errs_ok g q ers : state_of p g = Some q -> aget eqb q (p_errors p) = Some ers -> forall k, In k ers -> k = nb + 1.
  Proof.
    intros Hg He k Hk. pose proof (can_errors _ _ _ Hcan _ _ Hg) as H. rewrite He in H. apply H in Hk as (q0 & la & r & _ & Hr & Hq). eapply err_rule; eauto. eapply nth_error_In; eauto.
  Qed.
  Lemma inv_next st g ts pos st' : invat st g ts pos -> step st = inl st' -> exists g' ts' pos', invat st' g' ts' pos'.
  Proof.
    intros Hinv Hs. destruct (cases tix s P [] ss w Hm _ _ _ _ Hinv) as ([[q|k|]|] & _ & Hc); cbn in Hc.
    - destruct Hc as (_ & _ & s' & E0 & Hi). rewrite E0 in Hs. injection Hs as <-. eauto.
    - destruct Hc as [(r & _ & _ & E0 & _)|(r & dd & ts1 & ts2 & args & gen & _ & _ & _ & _ & _ & _ & _ & _ & _ & Hc)]; [congruence|].
      destruct (gen args); [destruct Hc as (s' & E0 & Hi); rewrite E0 in Hs; injection Hs as <-; eauto|destruct Hc; congruence|congruence].
    - destruct Hc as (_ & _ & _ & t & v & _ & _ & E0). congruence.
    - destruct Hc as (_ & [(it & E0 & _)|(s' & E0 & _ & g' & ts' & ts2 & lo & hi & pos' & _ & _ & _ & _ & _ & Hi)]); [congruence|]. rewrite E0 in Hs. injection Hs as <-. eauto.
  Qed.
  Lemma rec_step st g ts pos st' : invat st g ts pos -> rec_ok st -> step st = inl st' -> rec_ok st'.
  Proof.
    intros Hinv Hr Hs. destruct (inv_next _ _ _ _ _ Hinv Hs) as (g' & ts' & pos' & Hinv'). unfold parse_step in Hs. cbv zeta in Hs. rewrite read_rec in Hs.
    destruct (ps_buf (ps_read tix st)) as [|[t i] buf]; [discriminate|]. fold p in Hs.
    destruct (act p (ps_state (ps_read tix st)) t) as [[[q|k|]|]| |]; try discriminate.
    - destruct t; try discriminate; injection Hs as <-; exact Hr.
    - destruct (nth_error (p_rules p) k) as [r|]; [|discriminate]. destruct (_ <? _); [discriminate|]. destruct (reduce_args _ _ _) as [args| |]; try discriminate.
      destruct (nth_error (pr_gens P) k) as [g0|]; [|discriminate]. destruct (g0 args); try discriminate. destruct (aget eqb _ (p_goto p)) as [row|]; [|discriminate].
      destruct (aget eqb (r_lhs r) row) as [q|]; [|discriminate]. injection Hs as <-. unfold rec_ok. cbn [ps_rec]. destruct (existsb _ _); [intros ? []|exact Hr].
    - destruct (ps_stack _) as [|[? []] ?]; discriminate.
    - destruct (recover _ _ _ _ _ _ _ _) as [[[[[[cur st1] rc] back] head] ehead]|] eqn:Er; [|discriminate].
      destruct (put_back _ _ _ _) as [pb| |]; try discriminate. destruct (act p cur TErr) as [[[q|k|]|]| |]; try discriminate. injection Hs as <-.
      apply (recover_rc P) in Er as (ers & E1 & E2).
      pose proof (inv_stk _ _ _ _ _ _ _ _ _ _ Hinv') as Hk. cbn [ps_stack] in Hk. inversion Hk as [|? g0 ? ? ? ? ? _ Hg0 _ _]; subst.
      intros k Hin. cbn [ps_rec] in Hin. eapply errs_ok; eauto. destruct E2 as [->|[_ E2]]; auto.
  Qed.

  Lemma recover_here g q rc back head ehead (stk0 : list (nat * entry N)) : bd g -> state_of p g = Some q -> (forall k, In k rc -> k = nb + 1) ->
    exists rc', (forall k, In k rc' -> k = nb + 1) /\ recover p false rc back q head ehead stk0 = Some (q, stk0, rc', back, head, ehead).
  Proof.
    intros Hg Hq Hrc. assert (Hw : wants_error rs sr g (nb + 1)).
    { exists 0, TEoi, r2. split; [apply bd_valid; auto|]. split; [rewrite nth_r; reflexivity|reflexivity]. }
    pose proof (can_errors _ _ _ Hcan _ _ Hq) as He. destruct (aget eqb q (p_errors p)) as [ers|] eqn:Ee; [|exfalso; eapply He; eauto].
    destruct He as [Hne He]. apply He in Hw.
    destruct rc as [|y rc].
    - exists ers. split; [eapply errs_ok; eauto|]. destruct stk0; cbn [recover negb orb]; rewrite Ee; reflexivity.
    - exists (inter_nat (y :: rc) ers). split; [intros k Hk; apply filter_In in Hk as [Hk _]; auto|].
      assert (Hd : disjoint_nat (y :: rc) ers = false).
      { unfold disjoint_nat. cbn [forallb]. replace (existsb (Nat.eqb y) ers) with true; [reflexivity|]. symmetry. apply existsb_exists. exists (nb + 1). split; auto. apply Nat.eqb_eq. apply Hrc. left. auto. }
      destruct stk0; cbn [recover negb orb]; rewrite Ee, Hd; reflexivity.
  Qed.
  Lemma recover_to n g : bd g -> forall d (stk0 : list (nat * entry N)) ts back q head ehead rc, stk tix (gram s) (sx_start s) ss P w n stk0 (g ++ d) ts -> state_of p (g ++ d) = Some q ->
    (forall d1 d2, d = d1 ++ d2 -> d1 <> [] -> ~ wants rs sr (g ++ d1) (TM TErr)) -> (forall k, In k rc -> k = nb + 1) ->
    exists q' rc', state_of p g = Some q' /\ (forall k, In k rc' -> k = nb + 1) /\
      recover p false rc back q head ehead stk0 = Some (q', skipn (length d) stk0, rc', match d with [] => back | _ => true end,
        fst (fold_left upd (map snd (firstn (length d) stk0)) (head, ehead)), snd (fold_left upd (map snd (firstn (length d) stk0)) (head, ehead))).
  Proof.
    intros Hg d. induction d as [|Y d IH] using rev_ind; intros stk0 ts back q head ehead rc Hk Hq Hw Hrc.
    - rewrite app_nil_r in Hq. destruct (recover_here g q rc back head ehead stk0 Hg Hq Hrc) as (rc' & H1 & H2). exists q, rc'. split; auto.
    - assert (Hn : aget eqb q (p_errors p) = None).
      { destruct (aget eqb q (p_errors p)) as [ers|] eqn:Ee; auto. exfalso. apply (Hw (d ++ [Y]) []); [rewrite app_nil_r; auto|destruct d; discriminate|]. eapply errors_wants; eauto. }
      rewrite app_assoc in Hk. inversion Hk as [E0|st1 g0 ts0 s0 e Y0 t0 Hk0 Hs0 He0 _ E1 E2 E3]; [destruct (g ++ d); discriminate|]. apply app_inj_tail in E2 as [-> ->].
      replace (length (d ++ [Y])) with (S (length d)) by (rewrite app_length; simpl; lia). cbn [skipn firstn map fold_left snd].
      assert (Hw' : forall d1 d2, d = d1 ++ d2 -> d1 <> [] -> ~ wants rs sr (g ++ d1) (TM TErr)) by (intros d1 d2 ->; apply (Hw d1 (d2 ++ [Y])); rewrite app_assoc; auto).
      assert (G : forall h eh, exists q' rc', state_of p g = Some q' /\ (forall k, In k rc' -> k = nb + 1) /\
         recover p false rc true s0 h eh st1 = Some (q', skipn (length d) st1, rc', match d ++ [Y] with [] => back | _ => true end,
           fst (fold_left upd (map snd (firstn (length d) st1)) (h, eh)), snd (fold_left upd (map snd (firstn (length d) st1)) (h, eh)))).
      { intros h eh. destruct (IH st1 ts0 true s0 h eh rc Hk0 Hs0 Hw' Hrc) as (q' & rc' & A1 & A2 & A3). exists q', rc'. split; auto. split; auto. rewrite A3. destruct d; reflexivity. }
      destruct e as [v i|k i|lo hi|]; cbn [recover negb orb upd fst snd]; rewrite Hn; [apply G|apply G|apply G|destruct He0].
  Qed.

  Lemma twf_fun w0 t Y Y' : twf tix rs w0 Y t -> twf tix rs w0 Y' t -> Y = Y'.
  Proof. intros H1 H2. inversion H1; subst; inversion H2; subst; auto; congruence. Qed.
  Lemma twfs_fun w0 ts : forall l l', twfs tix rs w0 l ts -> twfs tix rs w0 l' ts -> l = l'.
  Proof.
    induction ts as [|t ts IH]; intros l l' H1 H2; inversion H1; subst; inversion H2; subst; auto. f_equal; [eapply twf_fun; eauto|auto].
  Qed.
  Lemma inv_len st g ts pos : invat st g ts pos -> length (ps_stack st) = length g /\ length ts = length g.
  Proof.
    intros Hinv. pose proof (inv_stk _ _ _ _ _ _ _ _ _ _ Hinv) as Hk. apply (stk_len _ _ _ _ _ _ (md_len _ _ _ _ Hm)) in Hk. lia.
  Qed.

  Lemma app_len_inj {A} (a b c d : list A) : a ++ b = c ++ d -> length a = length c -> a = c.
  Proof. revert c. induction a as [|x a IH]; intros [|y c] H1 H2; simpl in *; try discriminate; auto. injection H1 as -> H1. f_equal. eapply IH; eauto. Qed.
  Lemma error_turn st g d tg td pos : invat st (g ++ d) (tg ++ td) pos -> bd g -> length tg = length g -> pos < length w -> decides rs sr p (g ++ d) (la_at tix w pos) None ->
    (forall d1 d2, d = d1 ++ d2 -> d1 <> [] -> ~ wants rs sr (g ++ d1) (TM TErr)) -> rec_ok st ->
    exists st' q h eh, fold_left upd (map snd (firstn (length d) (ps_stack st))) (pos, pos) = (h, eh) /\ step st = inl st' /\
      invat st' (g ++ [TM TErr]) (tg ++ [Bad (Nat.min h eh) pos]) (match d with [] => pos | _ => S (Nat.min h pos) end) /\ rec_ok st' /\
      ps_stack st' = (q, EErr (Nat.min h eh) pos) :: skipn (length d) (ps_stack st).
  Proof.
    intros Hinv Hg Hlen Hlt Hd Hw Hrec.
    destruct (read_inv tix _ _ _ _ _ (md_len _ _ _ _ Hm) _ _ _ _ Hinv) as [Hread (t0 & i0 & buf0 & Eb0 & Hcase)].
    destruct Hcase as [(x & Hx & -> & -> & Hlt0 & ->)|(_ & _ & Hp' & _)]; [|lia].
    pose proof (inv_stk _ _ _ _ _ _ _ _ _ _ Hread) as Hk. rewrite read_stack in Hk.
    pose proof (inv_state _ _ _ _ _ _ _ _ _ _ Hinv) as Hst. fold p in Hst.
    assert (Hla : la_at tix w pos = TSym (tix x)) by (unfold la_at; rewrite Hx; reflexivity). rewrite Hla in Hd.
    assert (Hact : act p (ps_state st) (TSym (tix x)) = Ok None).
    { destruct (act_state (gram s) (sx_start s) ss P Hcan _ _ (TSym (tix x)) Hst) as (d0 & Ha & Hdd). fold p in Ha. rewrite Ha. f_equal. eapply decides_det; eauto. }
    destruct (recover_to _ _ Hg d (ps_stack st) (tg ++ td) false (ps_state st) pos pos (ps_rec st) Hk Hst Hw Hrec) as (q & rc & Hq & Hrc & Erec).
    destruct (fold_left upd (map snd (firstn (length d) (ps_stack st))) (pos, pos)) as [h eh] eqn:Ef. cbn [fst snd] in Erec.
    destruct (act_state (gram s) (sx_start s) ss P Hcan _ _ TErr Hq) as (dE & HaE & HdE). fold p in HaE.
    assert (HwE : wants rs sr g (TM TErr)) by (exists (nb + 1), 0, TEoi, r2; split; [apply bd_valid; auto|]; split; [rewrite nth_r; reflexivity|reflexivity]).
    destruct dE as [[q'|k'|]|]; try (destruct HdE as [HdE _]; contradiction).
    assert (Hstep : exists st', step st = inl st' /\ ps_stack st' = (q, EErr (Nat.min h eh) pos) :: skipn (length d) (ps_stack st)).
    { eexists. split.
      - unfold parse_step. cbv zeta. rewrite Eb0. fold p. rewrite read_state, Hact, read_rec, read_stack, Erec.
        rewrite put_back_ok by lia. rewrite HaE. reflexivity.
      - reflexivity. }
    destruct Hstep as (st' & Hs & Hstk'). exists st', q, h, eh. split; auto. split; auto.
    destruct (cases tix s P [] ss w Hm _ _ _ _ Hinv) as (d0 & Hd0 & Hc). rewrite Hla in Hd0. assert (d0 = None) by (eapply decides_det; eauto). subst d0. destruct Hc as [_ Hc].
    destruct Hc as [(it & E0 & _)|(s' & E0 & _ & g' & ts' & ts2 & lo & hi & pos' & Ets & _ & _ & _ & _ & Hi)]; [congruence|]. rewrite E0 in Hs. injection Hs as <-.
    assert (Hne : w <> []) by (intros ->; simpl in Hlt; lia).
    assert (Hts : ts' = tg).
    { assert (Hl : length ts' = length tg).
      { pose proof (inv_len _ _ _ _ Hi) as [L1 L2]. rewrite Hstk' in L1. rewrite !app_length in *. cbn [length] in *. rewrite skipn_length in L1. pose proof (inv_len _ _ _ _ Hinv) as [L3 L4]. rewrite !app_length in *. lia. }
      symmetry. eapply app_len_inj; [exact Ets|congruence]. }
    subst ts'.
    assert (Hgg : g' = g).
    { pose proof (inv_twfs tix _ _ _ _ _ (md_len _ _ _ _ Hm) _ _ _ _ (or_introl Hne) Hi) as T1. pose proof (inv_twfs tix _ _ _ _ _ (md_len _ _ _ _ Hm) _ _ _ _ (or_introl Hne) Hinv) as T2.
      apply twfs_app_inv in T1 as (a1 & a2 & E1 & T1 & T1'). apply twfs_app_inv in T2 as (b1 & b2 & E2 & T2 & _).
      assert (E3 : tg = a1) by (eapply app_len_inj; [exact E1|]; pose proof (twfs_len _ _ _ _ _ T1'); apply (f_equal (@length _)) in E1; rewrite !app_length in E1; simpl in *; lia).
      assert (E4 : tg = b1) by (eapply app_len_inj; [exact E2|]; pose proof (twfs_len _ _ _ _ _ T2); lia).
      rewrite <- E3 in T1. rewrite <- E4 in T2. exact (twfs_fun _ _ _ _ T1 T2). }
    subst g'.
    assert (Hbad : lo = Nat.min h eh /\ hi = pos).
    { pose proof (inv_stk _ _ _ _ _ _ _ _ _ _ Hi) as Hk'. rewrite Hstk' in Hk'. inversion Hk' as [|st1 g0 ts0 s0 e Y0 t0 _ _ He0 _ E1 E2 E3]. apply app_inj_tail in E2 as [_ ->]. apply app_inj_tail in E3 as [_ ->]. destruct He0 as (_ & He0 & _). injection He0 as -> ->. auto. }
    destruct Hbad as [-> ->].
    assert (Hsyms : ps_syms s' = ps_syms (ps_read tix st)) by (apply (step_shape tix P st s' E0)).
    assert (Hbuf : ps_buf s' = (if (match d with [] => false | _ => true end) then tl (toks tix h (firstn (pos - h) (skipn h (ps_syms (ps_read tix st)))) ++ (TSym (tix x), pos) :: toks tix (S pos) (skipn (S pos) (ps_syms (ps_read tix st)))) else toks tix h (firstn (pos - h) (skipn h (ps_syms (ps_read tix st)))) ++ (TSym (tix x), pos) :: toks tix (S pos) (skipn (S pos) (ps_syms (ps_read tix st))))).
    { revert E0. unfold parse_step. cbv zeta. rewrite Eb0. fold p. rewrite read_state, Hact, read_rec, read_stack, Erec. rewrite put_back_ok by lia. rewrite HaE. intros E0. injection E0 as <-. reflexivity. }
    pose proof (put_back_ok tix (ps_syms (ps_read tix st)) h pos ltac:(lia)) as Hpb.
    destruct (rec_pos tix s P [] ss w Hm st _ _ pos s' _ _ pos' (TSym (tix x)) pos _ q (skipn (length d) (ps_stack st)) rc (match d with [] => false | _ => true end) h eh _ Hinv Hi Hsyms Eb0
      ltac:(rewrite read_rec, read_state; exact Erec) Hpb Hbuf) as [Hpos' _].
    split; [destruct d; rewrite Hpos' in Hi; exact Hi|]. split; [exact (rec_step _ _ _ _ _ Hinv Hrec E0)|exact Hstk'].
    Unshelve. all: try exact [].
  Qed.

  Lemma shift_turn st g ts pos x q : invat st g ts pos -> nth_error w pos = Some x -> decides rs sr p g (TSym (tix x)) (Some (Shift q)) -> rec_ok st ->
    exists st' q', step st = inl st' /\ invat st' (g ++ [TM (TSym (tix x))]) (ts ++ [Leaf pos]) (S pos) /\ rec_ok st' /\ ps_stack st' = (q', ETok (tix x) pos) :: ps_stack st.
  Proof.
    intros Hinv Hx Hd Hrec. assert (Hla : la_at tix w pos = TSym (tix x)) by (unfold la_at; rewrite Hx; reflexivity).
    destruct (cases tix s P [] ss w Hm _ _ _ _ Hinv) as (d0 & Hd0 & Hc). rewrite Hla in Hd0. assert (d0 = Some (Shift q)) by (eapply decides_det; eauto). subst d0.
    destruct Hc as (_ & _ & st' & Hs & Hi). rewrite Hla in Hi. exists st'.
    destruct (read_inv tix _ _ _ _ _ (md_len _ _ _ _ Hm) _ _ _ _ Hinv) as [_ (t0 & i0 & buf0 & Eb0 & Hcase)].
    destruct Hcase as [(x0 & Hx0 & -> & -> & Hlt0 & ->)|(_ & _ & Hp' & _)]; [|exfalso; assert (pos < length w) by (apply nth_error_Some; congruence); lia]. assert (x0 = x) by congruence. subst x0.
    pose proof (inv_state _ _ _ _ _ _ _ _ _ _ Hinv) as Hst. fold p in Hst.
    assert (Hact : act p (ps_state st) (TSym (tix x)) = Ok (Some (Shift q))).
    { destruct (act_state (gram s) (sx_start s) ss P Hcan _ _ (TSym (tix x)) Hst) as (d1 & Ha & Hdd). fold p in Ha. rewrite Ha. f_equal. eapply decides_det; eauto. }
    exists (ps_state st). split; auto. split; auto. split; [exact (rec_step _ _ _ _ _ Hinv Hrec Hs)|].
    unfold parse_step in Hs. cbv zeta in Hs. rewrite Eb0 in Hs. fold p in Hs. rewrite read_state, Hact, read_stack in Hs. injection Hs as <-. reflexivity.
  Qed.

  Definition bad_end (st : pstate N T) : Prop := ends step st Panic \/ exists e it, ends step st (Ok (RReducer e, it)).
  Lemma bad_reaches st st' : reaches step st st' -> bad_end st' -> bad_end st.
  Proof. intros Hr [H|(e & it & H)]; [left|right; exists e, it]; eapply reaches_ends; eauto. Qed.

  Lemma reduce_turn_one st d k r ts pos : invat st (d ++ r_rhs r) ts pos -> decides rs sr p (d ++ r_rhs r) (la_at tix w pos) (Some (Reduce k)) -> nth_error rs k = Some r -> rec_ok st ->
    (bad_end st /\ forall st', step st <> inl st') \/ exists ts1 ts2 args gen v st' q v' i, ts = ts1 ++ ts2 /\ length ts1 = length d /\ twfs tix rs w (r_rhs r) ts2 /\ gmap (ev (pr_gens P) w) ts2 = GOk args /\
      nth_error (pr_gens P) k = Some gen /\ gen args = GOk v /\ step st = inl st' /\ invat st' (d ++ [NT (r_lhs r)]) (ts1 ++ [Node k ts2]) pos /\ rec_ok st' /\
      ev (pr_gens P) w (Node k ts2) = GOk (NonTerminal v) /\
      i = first_index (map snd (rev (firstn (length (r_rhs r)) (ps_stack st)))) (length (ps_syms (ps_read tix st))) /\
      ps_stack st' = (q, ENon v' i) :: skipn (length (r_rhs r)) (ps_stack st).
  Proof.
    intros Hinv Hd Hr Hrec. destruct (cases tix s P [] ss w Hm _ _ _ _ Hinv) as (d0 & Hd0 & Hc). assert (d0 = Some (Reduce k)) by (eapply decides_det; eauto). subst d0.
    destruct Hc as [(r0 & _ & _ & E0 & _)|(r0 & dd & ts1 & ts2 & args & gen & Hr0 & Eg & _ & _ & Ets & Hl & Htw & Hgm & Hgen & Hc)].
    - left. split; [left; apply ends_step; exact E0|congruence].
    - assert (r0 = r) by (unfold rs in *; congruence). subst r0. apply app_inv_tail in Eg. subst dd. destruct (gen args) as [v|e|] eqn:Eg.
      + right. destruct Hc as (st' & Hs & Hi).
        pose proof (inv_state _ _ _ _ _ _ _ _ _ _ Hinv) as Hst. fold p in Hst.
        destruct (read_inv tix _ _ _ _ _ (md_len _ _ _ _ Hm) _ _ _ _ Hinv) as [_ (t0 & i0 & buf0 & Eb0 & Hcase)].
        assert (Hla : la_at tix w pos = t0).
        { unfold la_at. destruct Hcase as [(x0 & Hx0 & -> & _)|(-> & _ & Hp' & _)]; [rewrite Hx0; auto|]. replace (nth_error w pos) with (@None T); auto. symmetry. apply nth_error_None. lia. }
        assert (Hact : act p (ps_state st) t0 = Ok (Some (Reduce k))).
        { destruct (act_state (gram s) (sx_start s) ss P Hcan _ _ t0 Hst) as (d1 & Ha & Hdd). fold p in Ha. rewrite Ha. f_equal. rewrite Hla in Hd. eapply decides_det; eauto. }
        assert (Hk : exists q v', ps_stack st' = (q, ENon v' (first_index (map snd (rev (firstn (length (r_rhs r)) (ps_stack st)))) (length (ps_syms (ps_read tix st))))) :: skipn (length (r_rhs r)) (ps_stack st)).
        { pose proof Hs as Hs'. unfold parse_step in Hs'. cbv zeta in Hs'. rewrite Eb0 in Hs'. fold p in Hs'. rewrite read_state, Hact, read_stack, (can_rules _ _ _ Hcan), Hr in Hs'.
          destruct (_ <? _); [discriminate|]. destruct (reduce_args _ _ _) as [args'| |]; try discriminate.
          destruct (nth_error (pr_gens P) k) as [g0|]; [|discriminate]. destruct (g0 args'); try discriminate. destruct (aget eqb _ (p_goto p)) as [row|]; [|discriminate].
          destruct (aget eqb (r_lhs r) row) as [q|]; [|discriminate]. injection Hs' as <-. cbn [ps_stack]. eauto. }
        destruct Hk as (q1 & v1 & Hk). exists ts1, ts2, args, gen, v, st', q1, v1. eexists.
        repeat (split; [solve [auto | exact (rec_step _ _ _ _ _ Hinv Hrec Hs)]|]). split; [|split; [reflexivity|exact Hk]].
        cbn [ev]. rewrite Hgm. cbn [gbind]. unfold call. rewrite Hgen, Eg. reflexivity.
      + left. destruct Hc as [it E0]. split; [right; exists e, it; apply ends_step; exact E0|congruence].
      + left. split; [left; apply ends_step; exact Hc|congruence].
  Qed.

  Lemma reduce_turn st d k r ts pos : invat st (d ++ r_rhs r) ts pos -> decides rs sr p (d ++ r_rhs r) (la_at tix w pos) (Some (Reduce k)) -> nth_error rs k = Some r -> rec_ok st ->
    bad_end st \/ exists ts1 ts2 args gen v st' q v' i, ts = ts1 ++ ts2 /\ length ts1 = length d /\ twfs tix rs w (r_rhs r) ts2 /\ gmap (ev (pr_gens P) w) ts2 = GOk args /\
      nth_error (pr_gens P) k = Some gen /\ gen args = GOk v /\ step st = inl st' /\ invat st' (d ++ [NT (r_lhs r)]) (ts1 ++ [Node k ts2]) pos /\ rec_ok st' /\
      ev (pr_gens P) w (Node k ts2) = GOk (NonTerminal v) /\
      i = first_index (map snd (rev (firstn (length (r_rhs r)) (ps_stack st)))) (length (ps_syms (ps_read tix st))) /\
      ps_stack st' = (q, ENon v' i) :: skipn (length (r_rhs r)) (ps_stack st).
  Proof. intros H1 H2 H3 H4. destruct (reduce_turn_one _ _ _ _ _ _ H1 H2 H3 H4) as [[H _]|H]; auto. Qed.

  Lemma all_stops st g ts pos : invat st g ts pos -> stops tix P st.
  Proof.
    apply (stops_all tix s P [] ss w Hm); auto.
    - apply (rstep_wf _ _ _ (md_fresh _ _ _ _ Hm) (cf_of s P [] ss Hm eq_refl) Hp).
    - apply (token_apart s). intros r Hr a b E0. rewrite gram_eq in Hr. apply in_app_or in Hr as [Hr|[<-|[<-|[<-|[]]]]].
      + exfalso. apply B_In in Hr. apply Hr. rewrite E0. apply in_or_app. simpl. auto.
      + exfalso. cbn in E0. destruct a as [|? [|? [|? [|? ?]]]]; discriminate.
      + cbn in E0. destruct a as [|? [|? [|? [|? ?]]]]; try discriminate. injection E0 as <-. eauto.
      + exfalso. cbn in E0. destruct a as [|? [|? ?]]; discriminate.
  Qed.
  Lemma fold_upd (es : list (entry N)) h eh : Forall (fun e => idx e <> None) es -> snd (fold_left upd es (h, eh)) = eh.
  Proof. intros HF. revert h. induction HF as [|e es He _ IH]; intros h; auto. cbn [fold_left]. destruct e; cbn [upd idx] in *; try congruence; apply IH. Qed.
  Lemma fold_upd_last (es : list (entry N)) e i he : idx e = Some i -> fst (fold_left upd (es ++ [e]) he) = i.
  Proof. intros He. rewrite fold_left_app. cbn [fold_left]. destruct e; cbn in *; congruence. Qed.
  Lemma first_idx (e : entry N) i es d : idx e = Some i -> first_index (e :: es) d = i.
  Proof. destruct e; cbn; congruence. Qed.

  Section After.
    Variable gm : list sym.
    Hypothesis Hgm : bd gm.

    Lemma wants_end : wants rs sr (gm ++ [NT X]) Semi.
    Proof.
      pose proof (bd_valid gm Hgm 0 ltac:(lia)) as Hv. rewrite Nat.add_0_r in Hv. assert (Hr : nth_error rs nb = Some r1) by (rewrite <- (Nat.add_0_r nb), nth_r; reflexivity).
      exists nb, 1, TEoi, r1. split; [exact (valid_adv _ _ _ _ _ _ _ Hv Hr 1 ltac:(simpl; lia))|]. auto.
    Qed.
    Lemma last_complete : complete rs sr (gm ++ [NT X]) (nb + 2) TEoi.
    Proof.
      pose proof (bd_valid gm Hgm 2 ltac:(lia)) as Hv. assert (Hr : nth_error rs (nb + 2) = Some r3) by (rewrite nth_r; reflexivity).
      exists r3. split; auto. exact (valid_adv _ _ _ _ _ _ _ Hv Hr 1 ltac:(simpl; lia)).
    Qed.
    Lemma rhs_list k r l : nth_error rs k = Some r -> k <> sr -> r_rhs r = l ++ [NT R] -> r_lhs r = R.
    Proof.
      intros Hr Hk E0. destruct (Nat.lt_ge_cases k nb) as [H|H].
      - exfalso. apply (rule_base _ _ H), B_In in Hr. destruct Hr as (_ & _ & Hr & _). apply Hr. rewrite E0. apply in_or_app. simpl. auto.
      - replace k with (nb + (k - nb)) in Hr by lia. rewrite nth_r in Hr. rewrite sr_eq in Hk. destruct (k - nb) as [|[|[|[|j]]]] eqn:Ej; cbn in Hr; try (injection Hr as <-; reflexivity); [lia|destruct j; discriminate].
    Qed.
    Lemma list_run c c' : astar (gram s) (sx_start s) ss c c' -> snd c = [] -> (exists l, fst c = l ++ [NT R]) -> exists l, fst c' = l ++ [NT R].
    Proof.
      induction 1 as [|c c1 c2 Hs _ IH]; auto. intros E0 [l El]. destruct Hs as [g t v Hw|d1 k r v Hr Hk Hc]; cbn [fst snd] in *; [discriminate|]. apply IH; auto.
      destruct (r_rhs r) as [|Z l0 _] eqn:Er using rev_ind.
      - exfalso. destruct (Nat.lt_ge_cases k nb) as [H|H].
        + apply (rule_base _ _ H), B_In in Hr. tauto.
        + fold rs in Hr. replace k with (nb + (k - nb)) in Hr by lia. rewrite nth_r in Hr. destruct (k - nb) as [|[|[|[|j]]]]; cbn in Hr; try (injection Hr as <-; discriminate). destruct j; discriminate.
      - rewrite app_assoc in El. apply app_inj_tail in El as [_ ->]. exists d1. do 3 f_equal. eapply rhs_list; eauto.
    Qed.
    (** after the error symbol *)
    Lemma err_items it : valid rs sr (gm ++ [TM TErr]) it -> i_rule it = nb + 1 /\ i_pos it = 1.
    Proof.
      intros Hv. apply items in Hv as [[_ [E0|E0]]|(gm2 & Hgm2 & [(r0 & Hin & Hk2 & Hr0 & _ & Hle & E0)|(d0 & E0 & Hd0 & _)])].
      - destruct gm; discriminate.
      - apply (app_inj_tail gm []) in E0 as [_ E0]. discriminate.
      - assert (Hno' : gm ++ [TM TErr] = gm2 -> False) by (intros E1; symmetry in E1; pose proof (bd_last _ _ _ Hgm2 E1); discriminate).
        assert (Hl2 : forall l Y, gm ++ [TM TErr] = l ++ [Y] -> Y = TM TErr) by (intros l Y E1; apply app_inj_tail in E1; symmetry; tauto).
        destruct Hin as [<-|[<-|[<-|[]]]]; cbn [r_rhs r1 r2 r3 length] in Hle; destruct (i_pos it) as [|[|[|[|q]]]]; try lia; cbn [firstn r_rhs r1 r2 r3] in E0;
          try (rewrite app_nil_r in E0; contradiction).
        + apply Hl2 in E0. discriminate.
        + pose proof (Hl2 (gm2 ++ [NT X]) Semi) as F. rewrite <- app_assoc in F. apply F in E0. discriminate.
        + pose proof (Hl2 (gm2 ++ [NT X; Semi]) (NT R)) as F. rewrite <- app_assoc in F. apply F in E0. discriminate.
        + split; auto. eapply err_rule; [exact Hr0|simpl; auto].
        + pose proof (Hl2 (gm2 ++ [TM TErr]) Semi) as F. rewrite <- app_assoc in F. apply F in E0. discriminate.
        + pose proof (Hl2 (gm2 ++ [TM TErr; Semi]) (NT R)) as F. rewrite <- app_assoc in F. apply F in E0. discriminate.
        + apply Hl2 in E0. discriminate.
      - exfalso. destruct d0 as [|Y d0 _] using rev_ind.
        + rewrite app_nil_r in E0. symmetry in E0. pose proof (bd_last _ _ _ Hgm2 E0). discriminate.
        + rewrite app_assoc in E0. apply app_inj_tail in E0 as [_ <-]. apply Forall_app in Hd0 as [_ Hd0]. inversion Hd0 as [|? ? HY _]. apply base_not in HY. tauto.
    Qed.
    Lemma err_wants Y : wants rs sr (gm ++ [TM TErr]) Y <-> Y = Semi.
    Proof.
      split.
      - intros (k & q & b0 & r & Hv & Hr & Hq). apply err_items in Hv as [Ek Eq]. cbn in Ek, Eq. subst k q. rewrite nth_r in Hr. cbn in Hr. injection Hr as <-. cbn in Hq. congruence.
      - intros ->. pose proof (bd_valid gm Hgm 1 ltac:(lia)) as Hv. assert (Hr : nth_error rs (nb + 1) = Some r2) by (rewrite nth_r; reflexivity).
        exists (nb + 1), 1, TEoi, r2. split; [exact (valid_adv _ _ _ _ _ _ _ Hv Hr 1 ltac:(simpl; lia))|]. auto.
    Qed.
    Lemma err_decides t d0 : decides rs sr p (gm ++ [TM TErr]) t d0 -> t <> TSym semi -> d0 = None.
    Proof.
      intros Hd Ht. destruct d0 as [[q|k|]|]; auto; exfalso; cbn in Hd.
      - destruct Hd as [Hw _]. apply err_wants in Hw. congruence.
      - destruct Hd as (_ & _ & _ & (r & Hr & Hv) & _). apply err_items in Hv as [Ek Eq]. cbn in Ek, Eq. subst k. rewrite nth_r in Hr. cbn in Hr. injection Hr as <-. discriminate.
      - destruct Hd as (_ & _ & Hacc). apply (accepting_g _ _ _ (md_fresh _ _ _ _ Hm)) in Hacc. apply (app_inj_tail gm []) in Hacc as [_ Hacc]. discriminate.
    Qed.
  End After.

  Section Segment.
    Variables (gm : list sym) (tg : list tree) (a b : nat).
    Hypothesis Hgm : bd gm.
    Hypothesis Htg : length tg = length gm.
    Hypothesis Ha : a < length w.
    Hypothesis Hab : a <= b.
    Hypothesis Hbw : b <= length w.
    Hypothesis Hno : forall i x, a <= i -> i < b -> nth_error w i = Some x -> tix x <> semi.
    Hypothesis Hend : forall x, nth_error w b = Some x -> tix x = semi.

    Definition bottom (st : pstate N T) (d : list sym) : Prop :=
      d = [] \/ exists es e, map snd (firstn (length d) (ps_stack st)) = es ++ [e] /\ idx e = Some a /\ Forall (fun e => idx e <> None) es.
    Record D (st : pstate N T) (d : list sym) (td : list tree) (pos : nat) : Prop := {
      D_inv : invat st (gm ++ d) (tg ++ td) pos;
      D_base : Forall base_sym d;
      D_lvs : flat_map leaves td = seq a (pos - a);
      D_le : a <= pos <= b;
      D_bot : bottom st d;
      D_rec : rec_ok st;
      D_begin : d = [] \/ exists y, nth_error w a = Some y /\ can_begin tix base X y;
      D_run : astar (gram s) (sx_start s) ss (gm, kinds tix (skipn a w)) (gm ++ d, kinds tix (skipn pos w)) }.

    Lemma D_len st d td pos : D st d td pos -> length td = length d.
    Proof. intros H. pose proof (inv_len _ _ _ _ (D_inv _ _ _ _ H)) as [_ L]. rewrite !app_length in L. lia. Qed.
    Lemma D_nil st d td pos : D st d td pos -> (d = [] <-> pos = a).
    Proof.
      intros H. pose proof (D_len _ _ _ _ H) as L. pose proof (D_lvs _ _ _ _ H) as Hl. pose proof (D_le _ _ _ _ H) as Hle. split.
      - intros ->. destruct td; [|discriminate]. simpl in Hl. destruct (pos - a) eqn:Ep; [lia|discriminate].
      - intros ->. rewrite Nat.sub_diag in Hl. simpl in Hl. destruct d as [|Y d]; auto. exfalso.
        assert (Hne : w <> []) by (intros E0; rewrite E0 in Ha; simpl in Ha; lia).
        pose proof (inv_twfs tix _ _ _ _ _ (md_len _ _ _ _ Hm) _ _ _ _ (or_introl Hne) (D_inv _ _ _ _ H)) as T1. apply twfs_app_inv in T1 as (b1 & b2 & E2 & T1 & T2).
        assert (E3 : tg = b1) by (eapply app_len_inj; [exact E2|]; pose proof (twfs_len _ _ _ _ _ T1); lia). rewrite E3 in E2. apply app_inv_head in E2. subst b2.
        apply (proj2 (clean_base w)) in T2; [|apply (D_base _ _ _ _ H)]. apply (proj2 T2); auto. discriminate.
    Qed.

    Lemma kinds_skip i x : nth_error w i = Some x -> kinds tix (skipn i w) = TSym (tix x) :: kinds tix (skipn (S i) w).
    Proof. intros Hx. rewrite (skipn_cons _ _ _ Hx). reflexivity. Qed.
    Lemma la_fst pos : fst_of (kinds tix (skipn pos w)) TEoi = la_at tix w pos.
    Proof.
      unfold la_at. destruct (nth_error w pos) as [x|] eqn:Ex; [rewrite (kinds_skip _ _ Ex); auto|]. apply nth_error_None in Ex. rewrite skipn_all2 by auto. reflexivity.
    Qed.

    (** what one turn does before the end of the statement *)
    Lemma D_shift st d td pos x q : D st d td pos -> nth_error w pos = Some x -> pos < b -> decides rs sr p (gm ++ d) (TSym (tix x)) (Some (Shift q)) ->
      exists st', step st = inl st' /\ D st' (d ++ [TM (TSym (tix x))]) (td ++ [Leaf pos]) (S pos).
    Proof.
      intros H Hx Hlt Hd. destruct (shift_turn _ _ _ _ _ _ (D_inv _ _ _ _ H) Hx Hd (D_rec _ _ _ _ H)) as (st' & q' & Hs & Hi & Hr & Hk). exists st'. split; auto.
      pose proof (D_le _ _ _ _ H) as Hle. destruct Hd as [Hw _].
      assert (Hns : TSym (tix x) <> TSym semi) by (intros E0; injection E0 as E0; eapply Hno; [| |exact Hx|exact E0]; lia).
      destruct (wants_base gm d _ Hgm (D_base _ _ _ _ H) Hw ltac:(discriminate) Hns) as [Hbs Hf].
      constructor; auto.
      - rewrite !app_assoc. exact Hi.
      - apply Forall_app. split; [apply (D_base _ _ _ _ H)|auto].
      - rewrite flat_map_app, (D_lvs _ _ _ _ H). replace (S pos - a) with (pos - a + 1) by lia. rewrite seq_app. cbn [flat_map leaves seq app]. do 2 f_equal. lia.
      - lia.
      - right. unfold bottom. rewrite app_length, Nat.add_1_r. rewrite Hk. cbn [firstn map snd]. destruct (D_bot _ _ _ _ H) as [E0|(es & e & E1 & E2 & E3)].
        + exists [], (ETok (tix x) pos). rewrite E0. cbn. split; auto. split; auto. f_equal. apply (proj1 (D_nil _ _ _ _ H) E0).
        + exists (ETok (tix x) pos :: es), e. rewrite E1. split; auto. split; auto. constructor; auto. discriminate.
      - right. destruct (D_begin _ _ _ _ H) as [E0|E0]; auto. exists x. pose proof (proj1 (D_nil _ _ _ _ H) E0) as Ep. rewrite <- Ep. split; auto. apply firsts_begin. auto.
      - eapply astar_trans; [apply (D_run _ _ _ _ H)|]. rewrite (kinds_skip _ _ Hx), app_assoc. eapply as_step; [|apply as_refl]. constructor. exact Hw.
    Qed.
    Lemma D_reduce_one st d td pos k : D st d td pos -> k < nb -> decides rs sr p (gm ++ d) (la_at tix w pos) (Some (Reduce k)) ->
      (bad_end st /\ forall st', step st <> inl st') \/ exists st' r d1 td', step st = inl st' /\ nth_error rs k = Some r /\ d = d1 ++ r_rhs r /\ D st' (d1 ++ [NT (r_lhs r)]) td' pos.
    Proof.
      intros H Hlt Hd. pose proof Hd as (_ & _ & Hk & Hc & _).
      destruct (complete_cases gm d k _ Hgm (D_base _ _ _ _ H) Hk Hc) as [(E0 & _)|(Hkb & r & d1 & Hr & E0 & Hb1)]; [lia|].
      pose proof (D_inv _ _ _ _ H) as Hinv. rewrite E0, app_assoc in Hinv, Hd.
      destruct (reduce_turn_one _ _ _ _ _ _ Hinv Hd Hr (D_rec _ _ _ _ H)) as [Hbad|(ts1 & ts2 & args & gen & v & st' & q & v' & i & Ets & Hl & Htw & _ & _ & _ & Hs & Hi & Hrec & _ & Ei & Hk')]; [left; auto|right].
      assert (Hts : exists td1, ts1 = tg ++ td1 /\ td = td1 ++ ts2).
      { assert (Etg : tg = firstn (length tg) ts1).
        { assert (tg ++ td = firstn (length tg) ts1 ++ (skipn (length tg) ts1 ++ ts2)) as E1 by (rewrite app_assoc, firstn_skipn; auto).
          eapply app_len_inj; [exact E1|]. rewrite firstn_length. rewrite app_length in Hl. lia. }
        exists (skipn (length tg) ts1). assert (E1 : ts1 = tg ++ skipn (length tg) ts1) by (rewrite Etg at 1; symmetry; apply firstn_skipn). split; auto.
        rewrite E1, <- app_assoc in Ets. apply app_inv_head in Ets. auto. }
      destruct Hts as (td1 & E1 & E2). exists st', r, d1, (td1 ++ [Node k ts2]). split; auto. split; auto. split; auto.
      assert (Hrne : r_rhs r <> []) by (apply (rule_base _ _ Hkb) in Hr; apply B_In in Hr; tauto).
      constructor; auto.
      - rewrite !app_assoc, <- E1. exact Hi.
      - apply Forall_app. split; auto. constructor; auto. destruct (complete_split rs sr _ k _ (ex_intro _ _ nth_sr) Hc Hk) as (r' & dd & Hr' & Eg & (k2 & q2 & b2 & r2' & Hv2 & Hr2 & Hq2) & _).
        assert (r' = r) by congruence. subst r'. rewrite E0, app_assoc in Eg. apply app_inv_tail in Eg. subst dd.
        apply items in Hv2 as [[Hk2 _]|(gm2 & Hgm2 & [(r0 & Hin & Hk2 & Hr0 & _ & _ & _)|(d0 & _ & _ & Hk2 & _)])]; cbn [i_rule i_pos i_la] in *.
        + exfalso. subst k2. rewrite nth_sr in Hr2. injection Hr2 as <-. apply nth_error_In in Hq2. destruct Hq2 as [Hq2|[]]. injection Hq2 as Hq2. apply (rule_base _ _ Hkb) in Hr. apply B_In in Hr. cbn in Hq2. destruct Hr as [Hr _]. congruence.
        + assert (r0 = r2') by congruence. subst r0. apply nth_error_In in Hq2. apply (rule_base _ _ Hkb) in Hr. apply B_In in Hr as [Hr _].
          destruct Hin as [<-|[<-|[<-|[]]]]; cbn in Hq2; repeat (destruct Hq2 as [Hq2|Hq2]); try discriminate; try contradiction; injection Hq2 as Hq2; first [rewrite <- Hq2; apply X_base|exfalso; congruence].
        + right. exists r2'. split; [eapply rule_base; eauto|eapply nth_error_In; eauto].
      - rewrite flat_map_app. cbn [flat_map leaves]. rewrite app_nil_r, <- flat_map_app, <- E2. apply (D_lvs _ _ _ _ H).
      - apply (D_le _ _ _ _ H).
      - right. unfold bottom. rewrite app_length, Nat.add_1_r, Hk'. cbn [firstn map snd]. destruct (D_bot _ _ _ _ H) as [En|(es & e & F1 & F2 & F3)].
        + exfalso. rewrite En in E0. destruct d1; [destruct (r_rhs r); [congruence|discriminate]|discriminate].
        + rewrite E0, app_length, Nat.add_comm, firstn_plus, map_app in F1.
          destruct d1 as [|Y d1].
          * cbn [length firstn map] in *. rewrite app_nil_r in F1. exists [], (ENon v' i). split; auto. split; [|constructor]. cbn. f_equal. rewrite Ei, map_rev, F1, rev_app_distr. cbn [rev app]. apply first_idx. auto.
          * assert (Hsk : exists es2, map snd (firstn (length (Y :: d1)) (skipn (length (r_rhs r)) (ps_stack st))) = es2 ++ [e] /\ Forall (fun e => idx e <> None) es2).
            { remember (map snd (firstn (length (Y :: d1)) (skipn (length (r_rhs r)) (ps_stack st)))) as l eqn:El.
              assert (Hll : l <> []).
              { rewrite El. intros E3. apply (f_equal (@length _)) in E3. rewrite map_length, firstn_length, skipn_length in E3. pose proof (inv_len _ _ _ _ (D_inv _ _ _ _ H)) as [L _]. rewrite E0, !app_length in L. cbn [length] in E3, L. lia. }
              destruct l as [|e0 l _] using rev_ind; [congruence|]. rewrite app_assoc in F1. apply app_inj_tail in F1 as [F1 ->]. exists l. split; auto. rewrite <- F1 in F3. apply Forall_app in F3. tauto. }
            destruct Hsk as (es2 & G1 & G2). exists (ENon v' i :: es2), e. rewrite G1. split; auto. split; auto. constructor; auto. discriminate.
      - destruct (D_begin _ _ _ _ H) as [En|Hbg]; auto. exfalso. rewrite En in E0. destruct d1; [destruct (r_rhs r); [congruence|discriminate]|discriminate].
      - eapply astar_trans; [apply (D_run _ _ _ _ H)|]. rewrite E0, app_assoc, app_assoc. eapply as_step; [|apply as_refl]. eapply a_red; eauto. rewrite la_fst, <- app_assoc, <- E0. exact Hc.
    Qed.

    Lemma D_reduce st d td pos k : D st d td pos -> k < nb -> decides rs sr p (gm ++ d) (la_at tix w pos) (Some (Reduce k)) ->
      bad_end st \/ exists st' d' td', step st = inl st' /\ D st' d' td' pos.
    Proof. intros H1 H2 H3. destruct (D_reduce_one _ _ _ _ _ H1 H2 H3) as [[H _]|(st' & r & d1 & td' & H4 & _ & _ & H5)]; [auto|right; eauto]. Qed.
    Lemma D_phase : forall m st d td pos, D st d td pos -> loop step m st <> OutOfFuel ->
      (exists st' t, reaches step st st' /\ D st' [NT X] [t] b) \/
      (exists st' d' td' pos', reaches step st st' /\ D st' d' td' pos' /\ decides rs sr p (gm ++ d') (la_at tix w pos') None) \/
      bad_end st.
    Proof.
      induction m as [|m IH]; intros st d td pos H Hl; [simpl in Hl; congruence|].
      destruct (cases tix s P [] ss w Hm _ _ _ _ (D_inv _ _ _ _ H)) as (d0 & Hd & _). fold rs sr p in Hd. pose proof (D_le _ _ _ _ H) as Hle.
      assert (Hnext : forall st' d' td' pos', step st = inl st' -> D st' d' td' pos' ->
        (exists st' t, reaches step st st' /\ D st' [NT X] [t] b) \/
        (exists st' d' td' pos', reaches step st st' /\ D st' d' td' pos' /\ decides rs sr p (gm ++ d') (la_at tix w pos') None) \/ bad_end st).
      { intros st' d' td' pos' Hs HD. cbn [loop] in Hl. rewrite Hs in Hl. pose proof (reaches_step _ _ _ Hs) as Hr.
        destruct (IH _ _ _ _ HD Hl) as [(s1 & t1 & R1 & R2)|[(s1 & d1 & td1 & p1 & R1 & R2)|R1]].
        - left. exists s1, t1. split; auto. eapply reaches_trans; eauto.
        - right. left. exists s1, d1, td1, p1. split; auto. eapply reaches_trans; eauto.
        - right. right. eapply bad_reaches; eauto. }
      assert (Hdone : d = [NT X] -> pos = b -> exists st' t, reaches step st st' /\ D st' [NT X] [t] b).
      { intros Ed ->. pose proof (D_len _ _ _ _ H) as L. rewrite Ed in L. destruct td as [|t [|t' td]]; try discriminate. rewrite Ed in H. exists st, t. split; [apply reaches_refl|]. auto. }
      destruct d0 as [d0|]; [|right; left; exists st, d, td, pos; split; [apply reaches_refl|auto]].
      destruct d0 as [q|k|].
      - destruct (nth_error w pos) as [x|] eqn:Ex.
        + assert (Hla : la_at tix w pos = TSym (tix x)) by (unfold la_at; rewrite Ex; reflexivity). rewrite Hla in Hd. destruct (Nat.eq_dec pos b) as [Eb|Hne].
          * left. apply Hdone; auto. rewrite Eb in Ex. pose proof (Hend _ Ex) as Hx. destruct Hd as [Hw _]. rewrite Hx in Hw. exact (wants_semi _ _ Hgm (D_base _ _ _ _ H) Hw).
          * destruct (D_shift _ _ _ _ _ _ H Ex ltac:(lia) Hd) as (st' & Hs & HD). eapply Hnext; eauto.
        + exfalso. assert (Hla : la_at tix w pos = TEoi) by (unfold la_at; rewrite Ex; reflexivity). rewrite Hla in Hd.
          destruct Hd as [Hw _]. apply (wants_base _ _ _ Hgm (D_base _ _ _ _ H)) in Hw as [Hw _]; try discriminate. apply base_not in Hw. tauto.
      - pose proof Hd as (_ & _ & Hk & Hc & _). destruct (complete_cases gm d k _ Hgm (D_base _ _ _ _ H) Hk Hc) as [(_ & Ed & Hla)|(Hkb & _)].
        + left. apply Hdone; auto. unfold la_at in Hla. destruct (nth_error w pos) as [x|] eqn:Ex; [discriminate|]. apply nth_error_None in Ex. lia.
        + destruct (D_reduce _ _ _ _ _ H Hkb Hd) as [Hb'|(st' & d' & td' & Hs & HD)]; [auto|]. eapply Hnext; eauto.
      - exfalso. destruct Hd as (_ & _ & Hacc). exact (no_accept gm d Hgm (D_base _ _ _ _ H) Hacc).
    Qed.

    Lemma astar_len c c' : astar (gram s) (sx_start s) ss c c' -> length (snd c') <= length (snd c).
    Proof. induction 1 as [|c c1 c2 Hs _ IH]; auto. destruct Hs; cbn [snd length] in *; lia. Qed.
    Lemma stuck_last st d td pos : D st d td pos -> decides rs sr p (gm ++ d) (la_at tix w pos) None -> b = length w -> ~ is_stmt tix base X (skipn a w).
    Proof.
      intros H Hd Hb' Hst. pose proof (D_le _ _ _ _ H) as Hle.
      pose proof (stmt_star gm _ [] Hgm Hst (or_intror eq_refl)) as Hrun. rewrite app_nil_r in Hrun.
      assert (Hlast : forall l, gm ++ d <> l ++ [NT R]).
      { intros l El. destruct d as [|Y d0 _] using rev_ind.
        - rewrite app_nil_r in El. pose proof (bd_last _ _ _ Hgm El). discriminate.
        - rewrite app_assoc in El. apply app_inj_tail in El as [_ ->]. pose proof (D_base _ _ _ _ H) as HF. apply Forall_app in HF as [_ HF]. inversion HF as [|? ? HY _]. apply base_not in HY. tauto. }
      assert (Hn : forall c c', astar (gram s) (sx_start s) ss c c' -> c = c' \/ exists c1, astep (gram s) (sx_start s) ss c c1 /\ astar (gram s) (sx_start s) ss c1 c') by (intros c c' []; eauto).
      assert (Hsame : (gm ++ [NT X], []) = (gm ++ d, kinds tix (skipn pos w)) -> False).
      { intros E0. injection E0 as E1 E2. rewrite <- la_fst, <- E2 in Hd. cbn [fst_of] in Hd. rewrite <- E1 in Hd. destruct Hd as (_ & _ & Hd). eapply Hd; [|exact (last_complete gm Hgm)]. rewrite sr_eq. lia. }
      destruct (astar_det _ _ _ (cf_of s P [] ss Hm eq_refl) _ _ _ Hrun (D_run _ _ _ _ H)) as [C|C]; apply Hn in C as [C|(c1 & C1 & C2)]; try (apply Hsame; congruence).
      - remember (gm ++ [NT X], @nil term) as c0 eqn:Ec0. destruct C1 as [g t v Hw|d1 k r v Hr Hk Hc]; injection Ec0 as E1 Ev; [discriminate|].
        rewrite E1, Ev in Hc. cbn [fst_of] in Hc.
        destruct (cf_of s P [] ss Hm eq_refl _ _ _ Hk Hc) as [_ Hu]. assert (Ek : nb + 2 = k) by (apply Hu; [change (nb + 2 <> sr); rewrite sr_eq; lia|exact (last_complete gm Hgm)]).
        fold rs in Hr. rewrite <- Ek, nth_r in Hr. cbn in Hr. injection Hr as <-. cbn [r_lhs r3] in C2.
        destruct (list_run _ _ C2) as [l El]; cbn [fst snd] in *; eauto. eapply Hlast; eauto.
      - eapply (stuck_step (gram s) (sx_start s) ss P (gm ++ d)); [|exact C1]. rewrite la_fst. exact Hd.
    Qed.
    Lemma stuck_not st d td pos x : D st d td pos -> decides rs sr p (gm ++ d) (la_at tix w pos) None -> nth_error w b = Some x -> ~ is_stmt tix base X (firstn (b - a) (skipn a w)).
    Proof.
      intros H Hd Hx Hst. pose proof (Hend _ Hx) as Hs. pose proof (D_le _ _ _ _ H) as Hle.
      assert (Ek : kinds tix (skipn a w) = kinds tix (firstn (b - a) (skipn a w)) ++ kinds tix (skipn b w)).
      { unfold kinds. rewrite <- map_app. f_equal. replace (skipn b w) with (skipn (b - a) (skipn a w)); [symmetry; apply firstn_skipn|]. rewrite skipn_plus. f_equal. lia. }
      pose proof (stmt_star gm _ (kinds tix (skipn b w)) Hgm Hst) as Hrun. rewrite la_fst in Hrun. unfold la_at in Hrun. rewrite Hx, Hs in Hrun. specialize (Hrun (or_introl eq_refl)). rewrite <- Ek in Hrun.
      assert (Heq : (gm ++ [NT X], kinds tix (skipn b w)) <> (gm ++ d, kinds tix (skipn pos w))).
      { intros E0. injection E0 as E1 E2. rewrite <- la_fst, <- E2, la_fst, <- E1 in Hd. unfold la_at in Hd. rewrite Hx, Hs in Hd. destruct Hd as [Hd _]. apply Hd. apply (wants_end gm Hgm). }
      assert (Hn : forall c c', astar (gram s) (sx_start s) ss c c' -> c = c' \/ exists c1, astep (gram s) (sx_start s) ss c c1 /\ astar (gram s) (sx_start s) ss c1 c') by (intros c c' []; eauto).
      destruct (astar_det _ _ _ (cf_of s P [] ss Hm eq_refl) _ _ _ Hrun (D_run _ _ _ _ H)) as [C|C]; apply Hn in C as [C|(c1 & C1 & C2)]; try congruence.
      - remember (gm ++ [NT X], kinds tix (skipn b w)) as c0 eqn:Ec0. destruct C1 as [g t v Hw|d1 k r v Hr Hk Hc]; injection Ec0 as E1 Ev.
        + apply astar_len in C2. cbn [snd] in C2.
          assert (L : length (t :: v) = length w - b) by (rewrite Ev; unfold kinds; rewrite map_length, skipn_length; auto).
          unfold kinds in C2. rewrite map_length, skipn_length in C2. cbn [length] in L. lia.
        + assert (Hc' : complete rs sr (gm ++ [NT X]) k (TSym semi)).
          { rewrite E1, Ev in Hc. rewrite la_fst in Hc. unfold la_at in Hc. rewrite Hx, Hs in Hc. exact Hc. }
          destruct (cf_of s P [] ss Hm eq_refl _ _ _ Hk Hc') as [Hf _]. apply Hf. apply (wants_end gm Hgm).
      - eapply (stuck_step (gram s) (sx_start s) ss P (gm ++ d)); [|exact C1]. rewrite la_fst. exact Hd.
    Qed.

    Lemma top_err st g ts lo hi pos : invat st (g ++ [TM TErr]) (ts ++ [Bad lo hi]) pos -> exists q st1, ps_stack st = (q, EErr lo hi) :: st1.
    Proof.
      intros Hinv. pose proof (inv_stk _ _ _ _ _ _ _ _ _ _ Hinv) as Hk. inversion Hk as [E0|st1 g0 ts0 s0 e Y0 t0 Hk0 Hs0 He0 _ E1 E2 E3]; [destruct g; discriminate|].
      apply app_inj_tail in E2 as [_ E2]. apply app_inj_tail in E3 as [_ E3]. rewrite E2, E3 in He0.
      destruct e as [v i|k i|lo' hi'|]; cbn [ent] in He0; [destruct He0 as ([A0 He0] & _); discriminate|destruct He0 as [He0 _]; discriminate| |destruct He0].
      destruct He0 as (_ & He0 & _). injection He0 as <- <-. eauto.
    Qed.
    Lemma K_skip : forall n st lo hi pos, b - pos = n -> invat st (gm ++ [TM TErr]) (tg ++ [Bad lo hi]) pos -> rec_ok st -> lo <= pos -> a <= pos <= b ->
      exists st', reaches step st st' /\ invat st' (gm ++ [TM TErr]) (tg ++ [Bad lo (if pos =? b then hi else b - 1)]) b /\ rec_ok st'.
    Proof.
      induction n as [|n IH]; intros st lo hi pos En Hinv Hrec Hlo Hpos.
      - assert (pos = b) by lia. subst pos. rewrite Nat.eqb_refl. exists st. split; [apply reaches_refl|auto].
      - assert (Hlt : pos < length w) by lia. destruct (nth_error w pos) as [x|] eqn:Ex; [|apply nth_error_None in Ex; lia].
        assert (Hla : la_at tix w pos = TSym (tix x)) by (unfold la_at; rewrite Ex; reflexivity).
        assert (Hns : TSym (tix x) <> TSym semi) by (intros E0; injection E0 as E0; eapply Hno; [| |exact Ex|exact E0]; lia).
        destruct (cases tix s P [] ss w Hm _ _ _ _ Hinv) as (d0 & Hd & _). fold rs sr p in Hd. pose proof Hd as Hd'. rewrite Hla in Hd'. apply (err_decides gm Hgm) in Hd'; auto. subst d0.
        assert (Hw : forall d1 d2 : list sym, [TM TErr] = d1 ++ d2 -> d1 <> [] -> ~ wants rs sr (gm ++ d1) (TM TErr)).
        { intros d1 d2 E0 Hne Hw. destruct d1 as [|Y [|Y' d1]]; [congruence| |destruct d1; discriminate]. injection E0 as <- _. apply (err_wants gm Hgm) in Hw. discriminate. }
        destruct (error_turn st gm [TM TErr] tg [Bad lo hi] pos Hinv Hgm Htg Hlt Hd Hw Hrec) as (st' & q & h & eh & Ef & Hs & Hi & Hr' & _).
        destruct (top_err _ _ _ _ _ _ Hinv) as (q0 & st1 & Hk). rewrite Hk in Ef. cbn [firstn length map snd fold_left upd fst] in Ef. injection Ef as <- <-.
        rewrite Nat.min_r in Hi by auto. cbn [Nat.min] in Hi. rewrite Nat.min_id in Hi.
        destruct (IH st' lo pos (S pos) ltac:(lia) Hi Hr' ltac:(lia) ltac:(lia)) as (st2 & R1 & R2 & R3). exists st2. split; [eapply reaches_trans; [apply reaches_step; eauto|auto]|]. split; auto.
        replace (pos =? b) with false by (symmetry; apply Nat.eqb_neq; lia). destruct (Nat.eqb_spec (S pos) b) as [E4|E4]; auto. replace (b - 1) with pos by lia. auto.
    Qed.

    Lemma slice_two i (x : T) y : nth_error w i = Some y -> nth_error w (S i) = Some x -> firstn 2 (skipn i w) = [y; x].
    Proof. intros H1 H2. rewrite (skipn_cons _ _ _ H1), (skipn_cons _ _ _ H2). reflexivity. Qed.
    Lemma seg_error st d td pos : D st d td pos -> decides rs sr p (gm ++ d) (la_at tix w pos) None -> pos < length w ->
      exists st' hi, reaches step st st' /\ invat st' (gm ++ [TM TErr]) (tg ++ [Bad a hi]) b /\ rec_ok st' /\
        (forall x, nth_error w b = Some x -> reported tix base X (firstn (b - a) (skipn a w)) x (firstn (S hi - a) (skipn a w))).
    Proof.
      intros H Hd Hlt. pose proof (D_le _ _ _ _ H) as Hle.
      assert (Hw : forall d1 d2 : list sym, d = d1 ++ d2 -> d1 <> [] -> ~ wants rs sr (gm ++ d1) (TM TErr)).
      { intros d1 d2 E0 Hne (k & q & b0 & r & Hv & Hr & Hq). assert (Hb1 : Forall base_sym d1) by (pose proof (D_base _ _ _ _ H) as Hb1; rewrite E0 in Hb1; apply Forall_app in Hb1; tauto).
        destruct (wants_err gm d1 _ _ _ _ Hgm Hb1 Hv Hr Hq). congruence. }
      destruct (error_turn st gm d tg td pos (D_inv _ _ _ _ H) Hgm Htg Hlt Hd Hw (D_rec _ _ _ _ H)) as (st' & q & h & eh & Ef & Hs & Hi & Hr' & _).
      destruct (nth_error w a) as [y|] eqn:Ey; [|apply nth_error_None in Ey; lia].
      assert (Hu2 : a + 2 <= b -> forall x, reported tix base X (firstn (b - a) (skipn a w)) x (firstn (b - a) (skipn a w))).
      { intros H2 x. remember (firstn (b - a) (skipn a w)) as u eqn:Eu. assert (Lu : length u = b - a) by (rewrite Eu, firstn_length, skipn_length; lia).
        destruct u as [|y0 [|z0 u]]; cbn [length] in Lu; try lia. apply reported_all. }
      destruct d as [|Y d].
      - assert (Epos : pos = a) by (apply (D_nil _ _ _ _ H); auto). subst pos. cbn [firstn length map fold_left] in Ef. injection Ef as <- <-. rewrite Nat.min_id in Hi.
        destruct (K_skip _ st' a a a eq_refl Hi Hr' ltac:(lia) ltac:(lia)) as (st2 & R1 & R2 & R3). exists st2. eexists. split; [eapply reaches_trans; [apply reaches_step; eauto|exact R1]|]. split; [exact R2|]. split; auto.
        intros x Hx. destruct (Nat.eqb_spec a b) as [E0|E0].
        + rewrite <- E0, Nat.sub_diag. replace (S a - a) with 1 by lia. rewrite (skipn_cons _ _ _ Ey). cbn [firstn]. rewrite <- E0 in Hx. assert (y = x) by congruence. subst y. constructor.
        + replace (S (b - 1) - a) with (b - a) by lia. destruct (Nat.eq_dec b (S a)) as [E1|E1]; [|apply Hu2; lia].
          rewrite E1. replace (S a - a) with 1 by lia. rewrite (skipn_cons _ _ _ Ey). cbn [firstn]. apply reported_one.
          intros Hbg. apply (begin_decides gm y Hgm Hbg). rewrite app_nil_r in Hd. unfold la_at in Hd. rewrite Ey in Hd. exact Hd.
      - destruct (D_bot _ _ _ _ H) as [E0|(es & e & E1 & E2 & E3)]; [discriminate|]. rewrite E1 in Ef.
        assert (Eh : h = a) by (pose proof (fold_upd_last es e a (pos, pos) E2) as F; rewrite Ef in F; auto).
        assert (Eeh : eh = pos) by (assert (HF : Forall (fun e => idx e <> None) (es ++ [e])) by (apply Forall_app; split; auto; constructor; auto; congruence); pose proof (fold_upd _ pos pos HF) as F; rewrite Ef in F; auto).
        rewrite Eh, Eeh in Hi. rewrite !(Nat.min_l a pos) in Hi by lia.
        assert (Hpa : pos <> a) by (intros E0; apply (D_nil _ _ _ _ H) in E0; discriminate).
        destruct (K_skip _ st' a pos (S a) eq_refl Hi Hr' ltac:(lia) ltac:(lia)) as (st2 & R1 & R2 & R3). exists st2. eexists. split; [eapply reaches_trans; [apply reaches_step; eauto|exact R1]|]. split; [exact R2|]. split; auto.
        intros x Hx. destruct (Nat.eqb_spec (S a) b) as [E0|E0].
        + assert (Epos : pos = S a) by lia. rewrite Epos, <- E0. replace (S a - a) with 1 by lia. replace (S (S a) - a) with 2 by lia. rewrite <- E0 in Hx.
          rewrite (slice_two a x y Ey Hx), (skipn_cons _ _ _ Ey). cbn [firstn]. apply reported_end.
          destruct (D_begin _ _ _ _ H) as [Ed|(y' & Ey' & Hbg)]; [discriminate|]. assert (y' = y) by congruence. subst y'. auto.
        + replace (S (b - 1) - a) with (b - a) by lia. apply Hu2. lia.
    Qed.
  End Segment.

  (** ** The whole list *)
  Lemma find_end : forall n a, length w - a = n -> a <= length w ->
    exists b, a <= b /\ b <= length w /\ (forall i x, a <= i -> i < b -> nth_error w i = Some x -> tix x <> semi) /\ (forall x, nth_error w b = Some x -> tix x = semi).
  Proof.
    induction n as [|n IH]; intros a En Hle.
    - exists a. split; auto. split; auto. split; [intros; lia|]. intros x Hx. exfalso. assert (a < length w) by (apply nth_error_Some; congruence). lia.
    - destruct (nth_error w a) as [y|] eqn:Ey; [|apply nth_error_None in Ey; lia]. destruct (Nat.eq_dec (tix y) semi) as [Hy|Hy].
      + exists a. split; auto. split; auto. split; [intros; lia|]. intros x Hx. congruence.
      + destruct (IH (S a) ltac:(lia) ltac:(lia)) as (b & H1 & H2 & H3 & H4). exists b. split; [lia|]. split; auto. split; auto.
        intros i x Hi1 Hi2 Hx. destruct (Nat.eq_dec i a) as [->|Hi]; [congruence|]. eapply H3; [| |exact Hx]; lia.
  Qed.
  Lemma fin_cons u x (rest : list T) : no_end tix semi u -> tix x = semi -> (last_right tix base X semi (u ++ x :: rest) <-> last_right tix base X semi rest).
  Proof.
    intros Hu Hx. split.
    - intros (u' & Hn & Hs & [E0|(w0 & x' & Hx' & E0)]).
      + exfalso. apply (Hn x); auto. rewrite <- E0. apply in_or_app. simpl. auto.
      + exists u'. split; auto. split; auto. revert w0 Hu E0. induction u as [|y u IH]; intros [|y' w0] Hu E0; simpl in E0; injection E0 as E1 E2.
        * auto.
        * right. exists w0, x'. auto.
        * exfalso. apply (Hu y); [simpl; auto|congruence].
        * apply (IH w0); auto. intros z Hz. apply Hu. simpl. auto.
    - intros (u' & Hn & Hs & [->|(w0 & x' & Hx' & ->)]); exists u'; split; auto; split; auto; right; [exists u, x; auto|].
      exists (u ++ x :: w0), x'. split; auto. rewrite <- app_assoc. reflexivity.
  Qed.
  Lemma fin_last u : no_end tix semi u -> last_right tix base X semi u -> is_stmt tix base X u.
  Proof.
    intros Hu (u' & _ & Hs & [->|(w0 & x' & Hx' & ->)]); auto. exfalso. apply (Hu x'); auto. apply in_or_app. simpl. auto.
  Qed.
  Lemma In_skipn i (x : T) : In x (skipn i w) -> exists j, i <= j /\ nth_error w j = Some x.
  Proof. intros Hin. apply In_nth_error in Hin as [n Hn]. rewrite nth_skip in Hn. exists (i + n). split; [lia|auto]. Qed.
  Lemma gens_nth j : nth_error (pr_gens P) (nb + j) = nth_error [g1; g2; g3; fun _ => GPanic] j.
  Proof.
    rewrite (md_gens _ _ _ _ Hm). unfold gens, s, rec_list. cbn [sx_rules]. rewrite map_app, <- app_assoc, nth_error_app2; rewrite map_length; fold nb; [|lia]. f_equal. lia.
  Qed.
  Lemma complete_decides g k t d0 : complete rs sr g k t -> k <> sr -> ~ accepting rs sr g -> decides rs sr p g t d0 -> d0 = Some (Reduce k).
  Proof.
    intros Hc Hk Hacc Hd. destruct (cf_of s P [] ss Hm eq_refl _ _ _ Hk Hc) as [Hw Hu]. destruct d0 as [[q|k'|]|]; cbn in Hd.
    - tauto.
    - destruct Hd as (_ & _ & H1 & H2 & _). rewrite (Hu k' H1 H2). auto.
    - tauto.
    - exfalso. destruct Hd as (_ & _ & H1). exact (H1 _ Hk Hc).
  Qed.
  Lemma end_turn st g ts b x : invat st g ts b -> wants rs sr g Semi -> nth_error w b = Some x -> tix x = semi -> rec_ok st ->
    exists st', step st = inl st' /\ invat st' (g ++ [Semi]) (ts ++ [Leaf b]) (S b) /\ rec_ok st'.
  Proof.
    intros Hinv Hw Hx Hs Hrec. destruct (cases tix s P [] ss w Hm _ _ _ _ Hinv) as (d0 & Hd & _). fold rs sr p in Hd. unfold la_at in Hd. rewrite Hx in Hd.
    destruct d0 as [[q|k|]|]; try (exfalso; destruct Hd as [Hd _]; rewrite Hs in Hd; contradiction).
    destruct (shift_turn _ _ _ _ _ _ Hinv Hx Hd Hrec) as (st' & q' & H1 & H2 & H3 & _). rewrite Hs in H2. exists st'. auto.
  Qed.
  Lemma not_found st g ts : invat st g ts (length w) -> decides rs sr p g TEoi None -> ~ wants rs sr g (TM TErr) -> exists it, ends step st (Ok (RNotFound, it)).
  Proof.
    intros Hinv Hd Hw. assert (Hla : la_at tix w (length w) = TEoi) by (unfold la_at; replace (nth_error w (length w)) with (@None T); auto; symmetry; apply nth_error_None; auto).
    destruct (cases tix s P [] ss w Hm _ _ _ _ Hinv) as (d0 & Hd0 & Hc). rewrite Hla in Hd0. assert (d0 = None) by (eapply decides_det; eauto). subst d0.
    destruct Hc as (_ & [(it & E0 & _)|(s' & E0 & _ & g' & ts' & ts2 & lo & hi & pos' & _ & Hw' & _ & _ & He & _)]).
    - exists it. apply ends_step. auto.
    - exfalso. destruct (He eq_refl) as (_ & _ & -> & _). contradiction.
  Qed.
  Lemma fold_turn st gm tg Y t b x t' gen j : bd gm -> length tg = length gm -> (j = 0 /\ Y = NT X /\ gen = g1) \/ (j = 1 /\ Y = TM TErr /\ gen = g2) ->
    invat st ((gm ++ [Y; Semi]) ++ [NT R]) ((tg ++ [t; Leaf b]) ++ [t']) (length w) -> nth_error w b = Some x -> rec_ok st ->
    bad_end st \/ exists st' args0 args' v, step st = inl st' /\ rec_ok st' /\ twf tix rs w Y t /\ ev (pr_gens P) w t = GOk args0 /\ ev (pr_gens P) w t' = GOk args' /\ gen [args0; Terminal x; args'] = GOk v /\
      invat st' (gm ++ [NT R]) (tg ++ [Node (nb + j) [t; Leaf b; t']]) (length w) /\ ev (pr_gens P) w (Node (nb + j) [t; Leaf b; t']) = GOk (NonTerminal v).
  Proof.
    intros Hg Hl Hj Hinv Hx Hrec. set (r := mk_rule R [Y; Semi; NT R]).
    assert (Hr : nth_error rs (nb + j) = Some r) by (rewrite nth_r; destruct Hj as [(-> & -> & _)|(-> & -> & _)]; reflexivity).
    assert (Hk : nb + j <> sr) by (rewrite sr_eq; lia).
    rewrite <- !app_assoc in Hinv. cbn [app] in Hinv. change [Y; Semi; NT R] with (r_rhs r) in Hinv.
    assert (Hc : complete rs sr (gm ++ r_rhs r) (nb + j) TEoi).
    { exists r. split; auto. pose proof (bd_valid gm Hg j ltac:(lia)) as Hv. pose proof (valid_adv _ _ _ _ _ _ _ Hv Hr 3 ltac:(simpl; lia)) as Hv'. exact Hv'. }
    assert (Hacc : ~ accepting rs sr (gm ++ r_rhs r)).
    { intros H. apply (accepting_g _ _ _ (md_fresh _ _ _ _ Hm)) in H. apply (f_equal (@length _)) in H. rewrite app_length in H. simpl in H. lia. }
    assert (Hla : la_at tix w (length w) = TEoi) by (unfold la_at; replace (nth_error w (length w)) with (@None T); auto; symmetry; apply nth_error_None; auto).
    destruct (cases tix s P [] ss w Hm _ _ _ _ Hinv) as (d0 & Hd & _). fold rs sr p in Hd. pose proof Hd as Hd'. rewrite Hla in Hd'. apply (complete_decides _ _ _ _ Hc Hk Hacc) in Hd'. subst d0.
    destruct (reduce_turn _ _ _ _ _ _ Hinv Hd Hr Hrec) as [Hbad|(ts1 & ts2 & args & gen' & v & st' & q & v' & i & Ets & Hl1 & Htw & Hgm' & Hgen & Hv & Hs & Hi & Hrec' & Hev & _)]; [left; auto|right].
    assert (E1 : tg = ts1) by (eapply app_len_inj; [exact Ets|congruence]). rewrite <- E1 in Ets. apply app_inv_head in Ets. rewrite <- Ets in Htw, Hgm', Hi, Hev. rewrite <- E1 in Hi.
    rewrite gens_nth in Hgen. assert (gen' = gen) by (destruct Hj as [(-> & _ & ->)|(-> & _ & ->)]; cbn in Hgen; congruence). subst gen'.
    cbn [gmap] in Hgm'. destruct (ev (pr_gens P) w t) as [a0| |] eqn:Ea; try discriminate. cbn [gbind ev] in Hgm'. rewrite Hx in Hgm'. cbn [gbind] in Hgm'.
    destruct (ev (pr_gens P) w t') as [a'| |] eqn:Ea'; try discriminate. cbn [gbind] in Hgm'. injection Hgm' as <-.
    exists st', a0, a', v. split; auto. split; auto. split; [inversion Htw; auto|]. split; auto.
  Qed.
  Lemma der_nonempty Y u : der B Y u -> u <> [].
  Proof.
    intros H. apply (proj1 (der_ders_ind B (fun Y u => u <> []) (fun l u => l <> [] -> u <> []) ltac:(discriminate) ltac:(intros r v Hr _ IH; apply IH; apply (B_In _ Hr)) ltac:(congruence)
      ltac:(intros Z l v v' _ IH1 _ _ _ E0; apply app_eq_nil in E0 as [E0 _]; auto)) _ _ H).
  Qed.
  Lemma last_turn st gm tg t : bd gm -> length tg = length gm -> invat st (gm ++ [NT X]) (tg ++ [t]) (length w) -> rec_ok st ->
    bad_end st \/ exists st' a0 v, step st = inl st' /\ rec_ok st' /\ twf tix rs w (NT X) t /\ ev (pr_gens P) w t = GOk a0 /\ g3 [a0] = GOk v /\
      invat st' (gm ++ [NT R]) (tg ++ [Node (nb + 2) [t]]) (length w) /\ ev (pr_gens P) w (Node (nb + 2) [t]) = GOk (NonTerminal v).
  Proof.
    intros Hg Hl Hinv Hrec. assert (Hr : nth_error rs (nb + 2) = Some r3) by (rewrite nth_r; reflexivity).
    assert (Hk : nb + 2 <> sr) by (rewrite sr_eq; lia).
    change [NT X] with (r_rhs r3) in Hinv.
    assert (Hacc : ~ accepting rs sr (gm ++ r_rhs r3)) by (apply no_accept; auto; constructor; [apply X_base|constructor]).
    assert (Hla : la_at tix w (length w) = TEoi) by (unfold la_at; replace (nth_error w (length w)) with (@None T); auto; symmetry; apply nth_error_None; auto).
    destruct (cases tix s P [] ss w Hm _ _ _ _ Hinv) as (d0 & Hd & _). fold rs sr p in Hd. pose proof Hd as Hd'. rewrite Hla in Hd'. apply (complete_decides _ _ _ _ (last_complete gm Hg) Hk Hacc) in Hd'. subst d0.
    destruct (reduce_turn _ _ _ _ _ _ Hinv Hd Hr Hrec) as [Hbad|(ts1 & ts2 & args & gen' & v & st' & q & v' & i & Ets & Hl1 & Htw & Hgm' & Hgen & Hv & Hs & Hi & Hrec' & Hev & _)]; [left; auto|right].
    assert (E1 : tg = ts1) by (eapply app_len_inj; [exact Ets|congruence]). rewrite <- E1 in Ets. apply app_inv_head in Ets. rewrite <- Ets in Htw, Hgm', Hi, Hev. rewrite <- E1 in Hi.
    rewrite gens_nth in Hgen. cbn in Hgen. injection Hgen as <-.
    cbn [gmap] in Hgm'. destruct (ev (pr_gens P) w t) as [a0| |] eqn:Ea; try discriminate. cbn [gbind] in Hgm'. injection Hgm' as <-.
    exists st', a0, v. split; auto. split; auto. split; [inversion Htw; auto|]. auto.
  Qed.
  Lemma end_rejects st gm tg : bd gm -> invat st gm tg (length w) -> exists it, ends step st (Ok (RNotFound, it)).
  Proof.
    intros Hg Hinv. assert (Hla : la_at tix w (length w) = TEoi) by (unfold la_at; replace (nth_error w (length w)) with (@None T); auto; symmetry; apply nth_error_None; auto).
    destruct (cases tix s P [] ss w Hm _ _ _ _ Hinv) as (d0 & Hd & Hc). fold rs sr p in Hd. rewrite Hla in Hd. apply (end_decides _ _ Hg) in Hd. subst d0.
    destruct Hc as (_ & [(it & E0 & _)|(s' & E0 & _ & g' & ts' & ts2 & lo & hi & pos' & _ & _ & _ & _ & He & Hi)]); [exists it; apply ends_step; auto|].
    destruct (He eq_refl) as (_ & _ & -> & ->). destruct (not_found _ _ _ Hi) as [it Hit].
    - destruct (cases tix s P [] ss w Hm _ _ _ _ Hi) as (d0 & Hd & _). fold rs sr p in Hd. rewrite Hla in Hd. pose proof (err_decides gm Hg _ _ Hd ltac:(discriminate)) as E1. rewrite E1 in Hd. exact Hd.
    - intros Hw. apply (err_wants gm Hg) in Hw. discriminate.
    - exists it. eapply reaches_ends; [apply reaches_step; exact E0|exact Hit].
  Qed.
  Lemma main : forall n st gm tg a, length w - a = n -> a <= length w -> bd gm -> length tg = length gm -> invat st gm tg a -> rec_ok st ->
    (exists st' t v, reaches step st st' /\ rec_ok st' /\ invat st' (gm ++ [NT R]) (tg ++ [t]) (length w) /\ ev (pr_gens P) w t = GOk (NonTerminal v) /\
       read_list tix base X semi g1 g2 g3 (skipn a w) v /\ last_right tix base X semi (skipn a w)) \/
    ((exists it, ends step st (Ok (RNotFound, it))) /\ ~ last_right tix base X semi (skipn a w)) \/ bad_end st.
  Proof.
    induction n as [n IHn] using (well_founded_induction lt_wf). intros st gm tg a En Hle Hg Hl Hinv Hrec.
    destruct (Nat.eq_dec a (length w)) as [->|Hne].
    - right. left. split; [exact (end_rejects _ _ _ Hg Hinv)|].
      rewrite skipn_all. intros Hf. apply fin_last in Hf; [|intros ? []]. apply der_nonempty in Hf. apply Hf. reflexivity.
    - assert (Ha : a < length w) by lia. destruct (find_end _ a eq_refl Hle) as (b & Hab & Hbw & Hno & Hend).
      assert (HD : D gm tg a b st [] [] a).
      { constructor; auto.
        - rewrite !app_nil_r. auto.
        - simpl. rewrite Nat.sub_diag. auto.
        - left. auto.
        - rewrite app_nil_r. apply as_refl. }
      destruct (all_stops _ _ _ _ Hinv) as (r0 & [m Hm'] & Hr0). assert (Hfuel : loop step m st <> OutOfFuel) by (rewrite (Hm' m (le_n m)); auto).
      assert (Ew : forall x, nth_error w b = Some x -> skipn a w = firstn (b - a) (skipn a w) ++ x :: skipn (S b) w).
      { intros x Hx. rewrite <- (skipn_cons _ _ _ Hx). rewrite <- (firstn_skipn (b - a) (skipn a w)) at 1. f_equal. rewrite skipn_plus. f_equal. lia. }
      assert (Hne0 : no_end tix semi (firstn (b - a) (skipn a w))).
      { intros y Hy. apply In_nth_error in Hy as [i Hi]. assert (Hib : i < b - a) by (assert (i < length (firstn (b - a) (skipn a w))) by (apply nth_error_Some; congruence); rewrite firstn_length in *; lia).
        assert (Hi' : nth_error (skipn a w) i = Some y) by (rewrite <- (firstn_skipn (b - a) (skipn a w)), nth_error_app1; [auto|apply nth_error_Some; congruence]). rewrite nth_skip in Hi'. eapply Hno; [| |exact Hi']; lia. }
      assert (Eall : nth_error w b = None -> firstn (b - a) (skipn a w) = skipn a w).
      { intros Hb'. apply nth_error_None in Hb'. apply firstn_all2. rewrite skipn_length. lia. }
      (* the rest of the list, once the end token is reached *)
      assert (Rest : forall st1 Y t x gen j, reaches step st st1 -> invat st1 (gm ++ [Y]) (tg ++ [t]) b -> rec_ok st1 -> nth_error w b = Some x -> bd (gm ++ [Y; Semi]) -> wants rs sr (gm ++ [Y]) Semi ->
        (j = 0 /\ Y = NT X /\ gen = g1) \/ (j = 1 /\ Y = TM TErr /\ gen = g2) ->
        (forall a0 v' v, twf tix rs w Y t -> ev (pr_gens P) w t = GOk a0 -> read_list tix base X semi g1 g2 g3 (skipn (S b) w) v' -> gen [a0; Terminal x; NonTerminal v'] = GOk v -> read_list tix base X semi g1 g2 g3 (skipn a w) v) ->
        (exists st' t v, reaches step st st' /\ rec_ok st' /\ invat st' (gm ++ [NT R]) (tg ++ [t]) (length w) /\ ev (pr_gens P) w t = GOk (NonTerminal v) /\
           read_list tix base X semi g1 g2 g3 (skipn a w) v /\ last_right tix base X semi (skipn a w)) \/
        ((exists it, ends step st (Ok (RNotFound, it))) /\ ~ last_right tix base X semi (skipn a w)) \/ bad_end st).
      { intros st1 Y t x gen j Hreach Hi1 Hrec1 Hx Hbd Hw Hj Hprog. pose proof (Hend _ Hx) as Hs. assert (Hlt : b < length w) by (apply nth_error_Some; congruence).
        destruct (end_turn _ _ _ _ _ Hi1 Hw Hx Hs Hrec1) as (st2 & Hs2 & Hi2 & Hrec2). rewrite <- !app_assoc in Hi2. cbn [app] in Hi2.
        assert (Hreach2 : reaches step st st2) by (eapply reaches_trans; [exact Hreach|apply reaches_step; auto]).
        assert (Hfin : last_right tix base X semi (skipn a w) <-> last_right tix base X semi (skipn (S b) w)) by (rewrite (Ew _ Hx); apply fin_cons; auto).
        destruct (IHn (length w - S b) ltac:(lia) st2 (gm ++ [Y; Semi]) (tg ++ [t; Leaf b]) (S b) eq_refl ltac:(lia) Hbd ltac:(rewrite !app_length; simpl; lia) Hi2 Hrec2)
          as [(st3 & t3 & v3 & R1 & R2 & R3 & R4 & R5 & R6)|[[(it & R1) R2]|R1]].
        - destruct (fold_turn _ _ _ _ _ _ _ _ _ _ Hg Hl Hj R3 Hx R2) as [Hbad|(st4 & a0 & a' & v & F1 & F2 & F3 & F4 & F5 & F6 & F7 & F8)].
          + right. right. eapply bad_reaches; [|exact Hbad]. eapply reaches_trans; eauto.
          + left. exists st4, (Node (nb + j) [t; Leaf b; t3]), v. split; [eapply reaches_trans; [exact Hreach2|]; eapply reaches_trans; [exact R1|apply reaches_step; auto]|].
            split; auto. split; auto. split; auto. assert (a' = NonTerminal v3) by congruence. subst a'. split; [eapply Hprog; eauto|]. apply Hfin. auto.
        - right. left. split; [exists it; eapply reaches_ends; eauto|]. rewrite Hfin. auto.
        - right. right. eapply bad_reaches; eauto. }
      assert (Ho : (exists x, nth_error w b = Some x) \/ nth_error w b = None) by (destruct (nth_error w b); eauto).
      destruct (D_phase gm tg a b Hg Hl Ha Hab Hbw Hno Hend m st [] [] a HD Hfuel) as [(st1 & t & R1 & R2)|[(st1 & d1 & td1 & pos1 & R1 & R2 & R3)|R1]]; [| |auto].
      + pose proof (D_lvs _ _ _ _ _ _ _ _ R2) as Hlv. cbn [flat_map] in Hlv. rewrite app_nil_r in Hlv. destruct Ho as [[x Hx]|Hx].
        * pose proof (Hend _ Hx) as Hs. eapply (Rest st1 (NT X) t x g1 0); auto.
          -- apply (D_inv _ _ _ _ _ _ _ _ R2).
          -- apply (D_rec _ _ _ _ _ _ _ _ R2).
          -- apply bd_stmt. auto.
          -- exact (wants_end gm Hg).
          -- intros a0 v' v H1 H2 H3 H4. rewrite (Ew _ Hx). eapply read_item; eauto. exact (proj1 (tree_value w) _ _ H1 X_base _ _ _ Hlv H2).
        * pose proof Hx as Hx'. apply nth_error_None in Hx'. assert (Eb : b = length w) by lia. pose proof (D_inv _ _ _ _ _ _ _ _ R2) as Hi1. rewrite Eb in Hi1.
          destruct (last_turn _ _ _ _ Hg Hl Hi1 (D_rec _ _ _ _ _ _ _ _ R2)) as [Hbad|(st2 & a0 & v & F1 & F2 & F3 & F4 & F5 & F6 & F7)]; [right; right; eapply bad_reaches; eauto|].
          pose proof (proj1 (tree_value w) _ _ F3 X_base _ _ _ Hlv F4) as Hval. rewrite (Eall Hx) in Hval, Hne0.
          left. exists st2, (Node (nb + 2) [t]), v. split; [eapply reaches_trans; [exact R1|apply reaches_step; auto]|]. split; auto. split; auto. split; auto.
          split; [eapply read_last; eauto|]. exists (skipn a w). split; auto. split; auto.
          pose proof (tree_stmt w t a (b - a) F3 Hlv ltac:(lia)) as Hst. rewrite (Eall Hx) in Hst. exact Hst.
      + pose proof (D_le _ _ _ _ _ _ _ _ R2) as Hle1.
        assert (Hnf : nth_error w b = None -> ~ last_right tix base X semi (skipn a w)).
        { intros Hb' Hf. pose proof Hb' as Hb2. apply nth_error_None in Hb2. rewrite (Eall Hb') in Hne0. apply fin_last in Hf; auto. eapply (stuck_last gm tg a b); eauto. lia. }
        destruct (Nat.lt_ge_cases pos1 (length w)) as [Hlt|Hge].
        * destruct (seg_error gm tg a b Hg Hl Ha Hab Hbw Hno st1 d1 td1 pos1 R2 R3 Hlt) as (st2 & hi & S1 & S2 & S3 & S4).
          assert (Hreach : reaches step st st2) by (eapply reaches_trans; eauto).
          destruct Ho as [[x Hx]|Hx].
          -- pose proof (Hend _ Hx) as Hs. eapply (Rest st2 (TM TErr) (Bad a hi) x g2 1); auto.
             ++ apply bd_err. auto.
             ++ apply (err_wants gm Hg). auto.
             ++ intros a0 v' v H1 H2 H3 H4. rewrite (Ew _ Hx). cbn [ev] in H2. injection H2 as <-. eapply read_error; eauto.
                eapply (stuck_not gm tg a b Hg); eauto.
          -- right. left. split; [|auto]. apply nth_error_None in Hx. assert (Eb : b = length w) by lia. rewrite Eb in S2.
             destruct (not_found _ _ _ S2) as [it Hit].
             ++ destruct (cases tix s P [] ss w Hm _ _ _ _ S2) as (d0 & Hd & _). fold rs sr p in Hd. unfold la_at in Hd. replace (nth_error w (length w)) with (@None T) in Hd by (symmetry; apply nth_error_None; auto).
                pose proof (err_decides gm Hg _ _ Hd ltac:(discriminate)) as E0. rewrite E0 in Hd. exact Hd.
             ++ intros Hw. apply (err_wants gm Hg) in Hw. discriminate.
             ++ exists it. eapply reaches_ends; eauto.
        * right. left. assert (Ep : pos1 = length w) by lia. assert (Eb : nth_error w b = None) by (apply nth_error_None; lia). split; [|auto].
          assert (Hla : la_at tix w pos1 = TEoi) by (unfold la_at; replace (nth_error w pos1) with (@None T); auto; symmetry; apply nth_error_None; lia). rewrite Hla in R3.
          pose proof (D_inv _ _ _ _ _ _ _ _ R2) as Hi1. rewrite Ep in Hi1. destruct (not_found _ _ _ Hi1 R3) as [it Hit].
          -- intros (k & q & b0 & r & Hv & Hr & Hq). destruct (wants_err gm d1 _ _ _ _ Hg (D_base _ _ _ _ _ _ _ _ R2) Hv Hr Hq) as [Ed _].
             apply (D_nil gm tg a b Hl Ha Hab Hbw _ _ _ _ R2) in Ed. lia.
          -- exists it. eapply reaches_ends; eauto.
  Qed.

  Lemma init_inv : invat (ps_init P w) [] [] 0.
  Proof. constructor; simpl; auto; try constructor; auto. Qed.
  Lemma accept_turn st t v : invat st [NT R] [t] (length w) -> ev (pr_gens P) w t = GOk (NonTerminal v) -> ends step st (Ok (ROk v, [])).
  Proof.
    intros Hinv Hev. assert (Hla : la_at tix w (length w) = TEoi) by (unfold la_at; replace (nth_error w (length w)) with (@None T); auto; symmetry; apply nth_error_None; auto).
    assert (Hacc : accepting rs sr [NT R]) by (change R with (sx_start s); apply accepting_start).
    destruct (cases tix s P [] ss w Hm _ _ _ _ Hinv) as (d0 & Hd & Hc). fold rs sr p in Hd. rewrite Hla in Hd. destruct d0 as [[q|k|]|]; cbn in Hd.
    - exfalso. destruct Hd as [(k & q0 & b0 & r & _ & Hr & Hq) _]. apply nth_error_In in Hr, Hq. unfold rs, augment in Hr. apply in_app_or in Hr as [Hr|[<-|[]]].
      + eapply (md_eoi _ _ _ _ Hm); eauto.
      + destruct Hq as [Hq|[]]; discriminate.
    - tauto.
    - destruct Hc as (_ & _ & _ & t0 & v0 & Et & Ev & Hs). injection Et as <-. assert (v0 = v) by congruence. subst v0. apply ends_step. auto.
    - tauto.
  Qed.
  Lemma list_result : (exists v, returns tix P w (ROk v) /\ read_list tix base X semi g1 g2 g3 w v /\ last_right tix base X semi w) \/
    (returns tix P w RNotFound /\ ~ last_right tix base X semi w) \/ panics tix P w \/ exists e, returns tix P w (RReducer e).
  Proof.
    destruct (main _ (ps_init P w) [] [] 0 eq_refl ltac:(lia) bd_nil eq_refl init_inv ltac:(intros ? [])) as [(st & t & v & H1 & H2 & H3 & H4 & H5 & H6)|[[[it H1] H2]|[H1|(e & it & H1)]]].
    - left. exists v. split; auto. eapply ends_returns. eapply reaches_ends; [exact H1|]. eapply accept_turn; eauto.
    - right. left. split; auto. eapply ends_returns; eauto.
    - right. right. left. eapply ends_panics; eauto.
    - right. right. right. exists e. eapply ends_returns; eauto.
  Qed.
  Lemma empty_rejected : w = [] -> returns tix P w RNotFound.
  Proof.
    intros Hw. pose proof init_inv as Hi. replace 0 with (length w) in Hi by (rewrite Hw; auto).
    destruct (end_rejects _ _ _ bd_nil Hi) as [it H]. eapply ends_returns; eauto.
  Qed.
  Lemma nothing_wrong : ~ last_right tix base X semi [].
  Proof. intros Hf. apply fin_last in Hf; [|intros ? []]. apply der_nonempty in Hf. apply Hf. reflexivity. Qed.
  Lemma split_eq u x (rest : list T) : forall u' x' rest', no_end tix semi u -> no_end tix semi u' -> tix x = semi -> tix x' = semi -> u ++ x :: rest = u' ++ x' :: rest' -> u = u' /\ x = x' /\ rest = rest'.
  Proof.
    induction u as [|y u IH]; intros [|y' u'] x' rest' H1 H2 Hx Hx' E0; simpl in E0.
    - injection E0 as -> ->. auto.
    - exfalso. injection E0 as -> _. apply (H2 y'); [left; auto|auto].
    - exfalso. injection E0 as -> _. apply (H1 x'); [left; auto|auto].
    - injection E0 as -> E0. destruct (IH u' x' rest') as (-> & -> & ->); auto; intros z Hz; [apply H1|apply H2]; right; auto.
  Qed.
  Lemma reported_det u x l1 l2 : reported tix base X u x l1 -> reported tix base X u x l2 -> l1 = l2.
  Proof. intros H1 H2. inversion H1; subst; inversion H2; subst; auto; contradiction. Qed.
  Lemma value_stmt u a0 : value tix base (NT X) u a0 -> is_stmt tix base X u.
  Proof.
    intros H. assert (Hu : firstn (length u) (skipn 0 u) = u) by (simpl; apply firstn_all).
    destruct (proj1 value_tree _ _ _ H u 0 Hu) as (t & A1 & A2 & A3 & _). pose proof (proj1 (tree_der tix (gram s) u) _ _ A1 A2) as Hd. rewrite A3, tok_slice, Hu in Hd by lia.
    apply der_base; auto. apply X_base.
  Qed.
  Lemma read_det u v1 v2 : read_list tix base X semi g1 g2 g3 u v1 -> read_list tix base X semi g1 g2 g3 u v2 -> v1 = v2.
  Proof.
    assert (Hne : forall u x (rest : list T), tix x = semi -> no_end tix semi (u ++ x :: rest) -> False) by (intros u0 x rest Hx H; apply (H x); auto; apply in_or_app; simpl; auto).
    intros H. revert v2. induction H as [u a0 v Hu Ha0 Hv|u x rest a0 v' v Hu Hx Ha0 Hr IH Hv|u x rest sl v' v Hu Hx Hns Hsl Hr IH Hv]; intros v2 H2.
    - inversion H2 as [u0 a1 v0 Hu0 Ha1 Hv0 E0|u0 x0 rest0 a1 v1 v3 Hu0 Hx0 Ha1 Hr0 Hv0 E0|u0 x0 rest0 sl0 v1 v3 Hu0 Hx0 Hns0 Hsl0 Hr0 Hv0 E0].
      + assert (a1 = a0) by (eapply value_unique; eauto). congruence.
      + exfalso. rewrite <- E0 in Hu. eapply Hne; eauto.
      + exfalso. rewrite <- E0 in Hu. eapply Hne; eauto.
    - inversion H2 as [u0 a1 v0 Hu0 Ha1 Hv0 E0|u0 x0 rest0 a1 v1 v3 Hu0 Hx0 Ha1 Hr0 Hv0 E0|u0 x0 rest0 sl0 v1 v3 Hu0 Hx0 Hns0 Hsl0 Hr0 Hv0 E0]; [exfalso; eapply Hne; eauto| |];
        destruct (split_eq _ _ _ _ _ _ Hu0 Hu Hx0 Hx E0) as (E1 & E2 & E3); rewrite E1, ?E2, E3 in *.
      + assert (a1 = a0) by (eapply value_unique; eauto). subst a1. apply IH in Hr0. congruence.
      + exfalso. apply Hns0. eapply value_stmt; eauto.
    - inversion H2 as [u0 a1 v0 Hu0 Ha1 Hv0 E0|u0 x0 rest0 a1 v1 v3 Hu0 Hx0 Ha1 Hr0 Hv0 E0|u0 x0 rest0 sl0 v1 v3 Hu0 Hx0 Hns0 Hsl0 Hr0 Hv0 E0]; [exfalso; eapply Hne; eauto| |];
        destruct (split_eq _ _ _ _ _ _ Hu0 Hu Hx0 Hx E0) as (E1 & E2 & E3); rewrite E1, ?E2, E3 in *.
      + exfalso. apply Hns. eapply value_stmt; eauto.
      + rewrite (reported_det _ _ _ _ Hsl0 Hsl) in Hv0. apply IH in Hr0. congruence.
  Qed.
  Lemma read_right u v : read_list tix base X semi g1 g2 g3 u v -> last_right tix base X semi u.
  Proof.
    induction 1 as [u a0 v Hu Hv _|u x rest a0 v' v Hu Hx _ _ IH _|u x rest sl v' v Hu Hx _ _ _ IH _]; [|apply fin_cons; auto..].
    exists u. split; auto. split; auto. eapply value_stmt; eauto.
  Qed.
  Lemma list_apart : errors_apart s.
  Proof.
    apply (token_apart s). intros r Hr a b E0. rewrite gram_eq in Hr. apply in_app_or in Hr as [Hr|[<-|[<-|[<-|[]]]]].
    - exfalso. apply B_In in Hr. apply Hr. rewrite E0. apply in_or_app. simpl. auto.
    - exfalso. cbn in E0. destruct a as [|? [|? [|? [|? ?]]]]; discriminate.
    - cbn in E0. destruct a as [|? [|? [|? [|? ?]]]]; try discriminate. injection E0 as <-. eauto.
    - exfalso. cbn in E0. destruct a as [|? [|? ?]]; discriminate.
  Qed.
  (** ** A measure that every shift and every detected error lowers *)
  Notation n := (length w).
  Definition seg (gm : list sym) (tg : list tree) (a b : nat) : Prop :=
    bd gm /\ length tg = length gm /\ a < n /\ a <= b /\ b <= n /\
    (forall i x, a <= i -> i < b -> nth_error w i = Some x -> tix x <> semi) /\ (forall x, nth_error w b = Some x -> tix x = semi).
  Inductive cls : pstate N T -> list sym -> list tree -> nat -> nat -> Prop :=
  | cls_item gm tg a b st d td pos : seg gm tg a b -> D gm tg a b st d td pos -> cls st (gm ++ d) (tg ++ td) pos ((n - pos) + 2 * (n - a) + 1)
  | cls_err gm tg a b st lo hi pos h : seg gm tg a b -> invat st (gm ++ [TM TErr]) (tg ++ [Bad lo hi]) pos -> rec_ok st -> lo <= pos -> a <= pos <= b -> h <= b ->
      cls st (gm ++ [TM TErr]) (tg ++ [Bad lo hi]) pos ((n - h) + 2 * (n - pos))
  | cls_end st g ts : invat st g ts n -> bd g -> cls st g ts n 1
  | cls_lost st g ts : invat st (g ++ [TM TErr]) ts n -> bd g -> cls st (g ++ [TM TErr]) ts n 0
  | cls_list st g ts V : invat st (g ++ [NT R]) ts n -> cls st (g ++ [NT R]) ts n V.

  Lemma cls_inv st g ts pos V : cls st g ts pos V -> invat st g ts pos.
  Proof. intros [gm tg a b st0 d td pos0 _ H|gm tg a b st0 lo hi pos0 h _ H|st0 g0 ts0 H|st0 g0 ts0 H|st0 g0 ts0 V0 H]; auto. apply (D_inv _ _ _ _ _ _ _ _ H). Qed.
  Lemma la_end : la_at tix w n = TEoi.
  Proof. unfold la_at. replace (nth_error w n) with (@None T); auto. symmetry. apply nth_error_None. auto. Qed.
  Lemma no_eoi g : ~ wants rs sr g (TM TEoi).
  Proof.
    intros (k & q0 & b0 & r & _ & Hr & Hq). apply nth_error_In in Hr, Hq. unfold rs, augment in Hr. apply in_app_or in Hr as [Hr|[<-|[]]].
    - eapply (md_eoi _ _ _ _ Hm); eauto.
    - destruct Hq as [Hq|[]]; discriminate.
  Qed.
  Lemma eoi_stuck st g ts st' : invat st g ts n -> decides rs sr p g TEoi None -> ~ wants rs sr g (TM TErr) -> step st <> inl st'.
  Proof.
    intros Hinv Hd Hw Hs. destruct (cases tix s P [] ss w Hm _ _ _ _ Hinv) as (d0 & Hd0 & Hc). rewrite la_end in Hd0. assert (d0 = None) by (eapply decides_det; eauto). subst d0.
    destruct Hc as (_ & [(it & E0 & _)|(s' & E0 & _ & g' & ts' & ts2 & lo & hi & pos' & _ & Hw' & _ & _ & He & _)]); [congruence|]. destruct (He eq_refl) as (_ & _ & -> & _). contradiction.
  Qed.
  Lemma cls_next st g ts a : invat st g ts a -> rec_ok st -> bd g -> a <= n -> exists V, cls st g ts a V /\ V <= 3 * (n - a) + 1 /\ (a = n -> V = 1).
  Proof.
    intros Hinv Hrec Hg Hle. destruct (Nat.eq_dec a n) as [->|Hne].
    - exists 1. split; [apply cls_end; auto|]. split; [lia|auto].
    - destruct (find_end _ a eq_refl Hle) as (b & Hab & Hbw & Hno & Hend). exists ((n - a) + 2 * (n - a) + 1). split; [|split; lia].
      assert (HD : D g ts a b st [] [] a).
      { constructor; auto.
        - rewrite !app_nil_r. auto.
        - simpl. rewrite Nat.sub_diag. auto.
        - left. auto.
        - rewrite app_nil_r. apply as_refl. }
      pose proof (inv_len _ _ _ _ Hinv) as [_ Hl].
      assert (Hsg : seg g ts a b) by (repeat split; auto; lia). pose proof (cls_item _ _ _ _ _ _ _ _ Hsg HD) as H. rewrite !app_nil_r in H. exact H.
  Qed.
  Lemma list_item g k q b0 r : valid rs sr (g ++ [NT R]) (mk_item k q b0) -> nth_error rs k = Some r -> q = length (r_rhs r) /\ (k = sr \/ r_lhs r = R).
  Proof.
    intros Hv Hr. pose proof Hv as Hv0. apply items in Hv as [[Hk Hg]|(gm2 & Hgm2 & [(r0 & Hin & Hk2 & Hr0 & _ & Hle & E0)|(d0 & E0 & Hd0 & _)])]; cbn [i_rule i_pos i_la] in *.
    - split; auto. subst k. rewrite nth_sr in Hr. injection Hr as <-. pose proof (start_items _ _ _ (md_fresh _ _ _ _ Hm) _ _ Hv0 eq_refl) as Hg'. cbn [i_pos] in Hg'.
      destruct q as [|[|q]]; cbn [r_rhs length] in *; auto; [destruct g; discriminate|]. destruct (valid_split rs sr _ _ Hv0 (ex_intro _ _ nth_sr)) as (r' & d' & Hr' & Hq & _). cbn [i_rule i_pos] in *. rewrite nth_sr in Hr'. injection Hr' as <-. simpl in Hq. lia.
    - assert (r0 = r) by congruence. subst r0. assert (Hno : forall gm3 Y l, gm3 ++ l ++ [Y] = g ++ [NT R] -> Y = NT R) by (intros gm3 Y l E1; rewrite app_assoc in E1; apply app_inj_tail in E1; tauto).
      destruct Hin as [<-|[<-|[<-|[]]]]; cbn [r_rhs r1 r2 r3 length] in Hle; destruct q as [|[|[|[|q]]]]; try lia; cbn [firstn r_rhs r1 r2 r3] in E0; auto; exfalso; symmetry in E0;
        try (rewrite app_nil_r in E0; pose proof (bd_last _ _ _ Hgm2 E0); discriminate).
      + apply (Hno gm2 (NT X) []) in E0. injection E0 as E0. apply Hb. auto.
      + apply (Hno gm2 Semi [NT X]) in E0. discriminate.
      + apply (Hno gm2 (TM TErr) []) in E0. discriminate.
      + apply (Hno gm2 Semi [TM TErr]) in E0. discriminate.
    - exfalso. destruct d0 as [|Y d0 _] using rev_ind.
      + rewrite app_nil_r in E0. symmetry in E0. pose proof (bd_last _ _ _ Hgm2 E0). discriminate.
      + rewrite app_assoc in E0. apply app_inj_tail in E0 as [_ <-]. apply Forall_app in Hd0 as [_ Hd0]. inversion Hd0 as [|? ? HY _]. apply base_not in HY. tauto.
  Qed.
  Lemma list_wants g Y : ~ wants rs sr (g ++ [NT R]) Y.
  Proof. intros (k & q & b0 & r & Hv & Hr & Hq). destruct (list_item _ _ _ _ _ Hv Hr) as [-> _]. pose proof (nth_error_Some_lt _ _ _ Hq). lia. Qed.

  Lemma cls_shift_one st g ts pos V q st' : cls st g ts pos V -> decides rs sr p g (la_at tix w pos) (Some (Shift q)) -> step st = inl st' ->
    exists g' ts' V', cls st' g' ts' (S pos) V' /\ length g' <= S (length g) /\ V' < V.
  Proof.
    intros [gm tg a b st0 d td pos0 Hsg H|gm tg a b st0 lo hi pos0 h Hsg H Hrec Hlo Hpos Hh|st0 g0 ts0 H Hg|st0 g0 ts0 H Hg|st0 g0 ts0 V0 H] Hd Hs.
    - pose proof Hsg as (Hg & Hl & Ha & Hab & Hbw & Hno & Hend). pose proof (D_le _ _ _ _ _ _ _ _ H) as Hle. destruct (nth_error w pos0) as [x|] eqn:Ex.
      + assert (Hla : la_at tix w pos0 = TSym (tix x)) by (unfold la_at; rewrite Ex; reflexivity). rewrite Hla in Hd. assert (Hlt : pos0 < n) by (apply nth_error_Some; congruence).
        destruct (Nat.eq_dec pos0 b) as [->|Hne].
        * pose proof (Hend _ Ex) as Hx. pose proof Hd as [Hw _]. rewrite Hx in Hw. pose proof (wants_semi _ _ Hg (D_base _ _ _ _ _ _ _ _ H) Hw) as Ed. subst d.
          destruct (end_turn _ _ _ _ _ (D_inv _ _ _ _ _ _ _ _ H) Hw Ex Hx (D_rec _ _ _ _ _ _ _ _ H)) as (st2 & Hs2 & Hi2 & Hrec2). rewrite Hs in Hs2. injection Hs2 as <-.
          destruct (cls_next _ _ _ _ Hi2 Hrec2) as (V' & H1 & H2 & H3); [rewrite <- app_assoc; apply bd_stmt; auto|lia|].
          eexists _, _, V'. split; [exact H1|]. split; [rewrite !app_length; simpl; lia|]. lia.
        * destruct (D_shift gm tg a b Hg Hl Ha Hab Hbw Hno _ _ _ _ _ _ H Ex ltac:(lia) Hd) as (st2 & Hs2 & HD). rewrite Hs in Hs2. injection Hs2 as <-.
          eexists _, _, _. split; [eapply cls_item; [exact Hsg|exact HD]|]. split; [rewrite !app_length; simpl; lia|]. lia.
      + exfalso. assert (Hla : la_at tix w pos0 = TEoi) by (unfold la_at; rewrite Ex; reflexivity). rewrite Hla in Hd. destruct Hd as [Hw _]. exact (no_eoi _ Hw).
    - pose proof Hsg as (Hg & Hl & Ha & Hab & Hbw & Hno & Hend). pose proof Hd as [Hw _]. apply (err_wants gm Hg) in Hw. injection Hw as Hw.
      destruct (nth_error w pos0) as [x|] eqn:Ex; [|exfalso; unfold la_at in Hw; rewrite Ex in Hw; discriminate].
      unfold la_at in Hw. rewrite Ex in Hw. injection Hw as Hx. assert (Hlt : pos0 < n) by (apply nth_error_Some; congruence).
      assert (Eb : pos0 = b) by (destruct (Nat.eq_dec pos0 b); auto; exfalso; eapply Hno; [| |exact Ex|exact Hx]; lia).
      destruct (end_turn _ _ _ _ _ H ltac:(apply (err_wants gm Hg); reflexivity) Ex Hx Hrec) as (st2 & Hs2 & Hi2 & Hrec2). rewrite Hs in Hs2. injection Hs2 as <-.
      destruct (cls_next _ _ _ _ Hi2 Hrec2) as (V' & H1 & H2 & H3); [rewrite <- app_assoc; apply bd_err; auto|lia|].
      eexists _, _, V'. split; [exact H1|]. split; [rewrite !app_length; simpl; lia|]. lia.
    - exfalso. rewrite la_end in Hd. destruct Hd as [Hw _]. exact (no_eoi _ Hw).
    - exfalso. rewrite la_end in Hd. destruct Hd as [Hw _]. exact (no_eoi _ Hw).
    - exfalso. destruct Hd as [Hw _]. exact (list_wants _ _ Hw).
  Qed.
  Lemma cls_reduce_one st g ts pos V k st' : cls st g ts pos V -> decides rs sr p g (la_at tix w pos) (Some (Reduce k)) -> step st = inl st' ->
    exists d r ts', nth_error rs k = Some r /\ g = d ++ r_rhs r /\ cls st' (d ++ [NT (r_lhs r)]) ts' pos V.
  Proof.
    assert (Hlist : forall st g ts, invat st g ts n -> decides rs sr p g (la_at tix w n) (Some (Reduce k)) -> step st = inl st' -> (forall r, nth_error rs k = Some r -> r_lhs r = R) ->
        exists d r ts', nth_error rs k = Some r /\ g = d ++ r_rhs r /\ forall V0, cls st' (d ++ [NT (r_lhs r)]) ts' n V0).
    { intros st0 g0 ts0 H Hd Hs HR. destruct (cases tix s P [] ss w Hm _ _ _ _ H) as (d0 & Hd0 & Hc). assert (d0 = Some (Reduce k)) by (eapply decides_det; eauto). subst d0.
      destruct Hc as [(r & _ & _ & Hs' & _)|(r & dd & ts1 & ts2 & args & gen & Hr & Eg & _ & _ & _ & _ & _ & _ & _ & Hc)]; [congruence|].
      destruct (gen args) as [v|e|]; [|destruct Hc as [it Hs']; congruence|congruence]. destruct Hc as (s' & Hs' & Hi). rewrite Hs in Hs'. injection Hs' as <-.
      exists dd, r, (ts1 ++ [Node k ts2]). split; auto. split; auto. rewrite (HR r Hr) in *. intros V0. apply cls_list. exact Hi. }
    intros [gm tg a b st0 d td pos0 Hsg H|gm tg a b st0 lo hi pos0 h Hsg H Hrec Hlo Hpos Hh|st0 g0 ts0 H Hg|st0 g0 ts0 H Hg|st0 g0 ts0 V0 H] Hd Hs.
    - pose proof Hsg as (Hg & Hl & Ha & Hab & Hbw & Hno & Hend). pose proof (D_le _ _ _ _ _ _ _ _ H) as Hle.
      pose proof Hd as (_ & _ & Hk & Hc & _). destruct (complete_cases gm d k _ Hg (D_base _ _ _ _ _ _ _ _ H) Hk Hc) as [(Ek & _ & Hla)|(Hkb & _)].
      { assert (Epos : pos0 = n) by (unfold la_at in Hla; destruct (nth_error w pos0) as [x|] eqn:Ex; [discriminate|]; apply nth_error_None in Ex; lia). subst pos0.
        destruct (Hlist _ _ _ (D_inv _ _ _ _ _ _ _ _ H) Hd Hs) as (d1 & r & ts' & H1 & H2 & H3); [|exists d1, r, ts'; auto].
        intros r Hr. rewrite Ek, nth_r in Hr. cbn in Hr. injection Hr as <-. reflexivity. }
      destruct (D_reduce_one gm tg a b Hg Hl Ha Hab Hbw _ _ _ _ _ H Hkb Hd) as [[_ Hbad]|(st2 & r & d1 & td' & Hs2 & Hr & Ed & HD)]; [exfalso; eapply Hbad; eauto|].
      rewrite Hs in Hs2. injection Hs2 as <-. exists (gm ++ d1), r, (tg ++ td'). split; auto. split; [rewrite Ed, app_assoc; reflexivity|]. rewrite <- app_assoc. apply (cls_item gm tg a b); auto.
    - exfalso. pose proof Hsg as (Hg & Hl & Ha & Hab & Hbw & Hno & Hend). 
      assert (Hdec : la_at tix w pos0 = TSym semi \/ la_at tix w pos0 <> TSym semi).
      { unfold la_at. destruct (nth_error w pos0) as [x|]; [|right; discriminate]. destruct (Nat.eq_dec (tix x) semi); [left; congruence|right; congruence]. }
      destruct Hdec as [E0|E0].
      + rewrite E0 in Hd. destruct Hd as [Hnw _]. apply Hnw. apply (err_wants gm Hg). auto.
      + apply (err_decides gm Hg) in Hd; auto. discriminate.
    - exfalso. rewrite la_end in Hd. apply (end_decides _ _ Hg) in Hd. discriminate.
    - exfalso. rewrite la_end in Hd. apply (err_decides g0 Hg) in Hd; discriminate.
    - destruct (Hlist _ _ _ H Hd Hs) as (d1 & r & ts' & H1 & H2 & H3); [|exists d1, r, ts'; auto].
      intros r Hr. pose proof Hd as (_ & _ & Hk & (r' & Hr' & Hv) & _). destruct (list_item _ _ _ _ _ Hv Hr') as [_ [E0|E0]]; congruence.
  Qed.
  Lemma cls_error_one st g ts pos V st' : cls st g ts pos V -> decides rs sr p g (la_at tix w pos) None -> step st = inl st' ->
    exists g' ts' pos' V', cls st' g' ts' pos' V' /\ length g' <= S (length g) /\ V' < V.
  Proof.
    intros [gm tg a b st0 d td pos0 Hsg H|gm tg a b st0 lo hi pos0 h Hsg H Hrec Hlo Hpos Hh|st0 g0 ts0 H Hg|st0 g0 ts0 H Hg|st0 g0 ts0 V0 H] Hd Hs.
    - pose proof Hsg as (Hg & Hl & Ha & Hab & Hbw & Hno & Hend). pose proof (D_le _ _ _ _ _ _ _ _ H) as Hle.
      assert (Hw : forall d1 d2 : list sym, d = d1 ++ d2 -> d1 <> [] -> ~ wants rs sr (gm ++ d1) (TM TErr)).
      { intros d1 d2 E0 Hne (k & q & b0 & r & Hv & Hr & Hq). assert (Hb1 : Forall base_sym d1) by (pose proof (D_base _ _ _ _ _ _ _ _ H) as Hb1; rewrite E0 in Hb1; apply Forall_app in Hb1; tauto).
        destruct (wants_err gm d1 _ _ _ _ Hg Hb1 Hv Hr Hq). congruence. }
      destruct (Nat.lt_ge_cases pos0 n) as [Hlt|Hge].
      + destruct (error_turn st0 gm d tg td pos0 (D_inv _ _ _ _ _ _ _ _ H) Hg Hl Hlt Hd Hw (D_rec _ _ _ _ _ _ _ _ H)) as (st2 & q & h & eh & Ef & Hs2 & Hi & Hr' & _). rewrite Hs in Hs2. injection Hs2 as <-.
        destruct d as [|Y d].
        * assert (Epos : pos0 = a) by (apply (D_nil gm tg a b Hl Ha Hab Hbw _ _ _ _ H); auto). subst pos0. cbn [firstn length map fold_left] in Ef. injection Ef as <- <-. rewrite Nat.min_id in Hi.
          eexists _, _, _, _. split; [apply (cls_err gm tg a b _ _ _ _ a Hsg Hi Hr'); lia|]. split; [rewrite !app_length; simpl; lia|]. lia.
        * destruct (D_bot _ _ _ _ _ _ _ _ H) as [E0|(es & e & E1 & E2 & E3)]; [discriminate|]. rewrite E1 in Ef.
          assert (Eh : h = a) by (pose proof (fold_upd_last es e a (pos0, pos0) E2) as F; rewrite Ef in F; auto). rewrite Eh in Hi.
          assert (Hpa : pos0 <> a) by (intros E0; apply (D_nil gm tg a b Hl Ha Hab Hbw _ _ _ _ H) in E0; discriminate).
          rewrite (Nat.min_l a pos0) in Hi by lia.
          eexists _, _, _, _. split; [apply (cls_err gm tg a b _ _ _ _ pos0 Hsg Hi Hr'); lia|]. split; [rewrite !app_length; simpl; lia|]. lia.
      + exfalso. assert (pos0 = n) by lia. subst pos0. rewrite la_end in Hd. eapply (eoi_stuck _ _ _ _ (D_inv _ _ _ _ _ _ _ _ H) Hd); [|exact Hs]. apply (Hw d []); [rewrite app_nil_r; auto|].
        intros E0. apply (D_nil gm tg a b Hl Ha Hab Hbw _ _ _ _ H) in E0. lia.
    - pose proof Hsg as (Hg & Hl & Ha & Hab & Hbw & Hno & Hend).
      assert (Hw : forall d1 d2 : list sym, [TM TErr] = d1 ++ d2 -> d1 <> [] -> ~ wants rs sr (gm ++ d1) (TM TErr)).
      { intros d1 d2 E0 Hne Hw. destruct d1 as [|Y [|Y' d1]]; [congruence| |destruct d1; discriminate]. injection E0 as <- _. apply (err_wants gm Hg) in Hw. discriminate. }
      destruct (Nat.lt_ge_cases pos0 n) as [Hlt|Hge].
      + assert (Hpb : pos0 <> b).
        { intros ->. destruct (nth_error w b) as [x|] eqn:Ex; [|apply nth_error_None in Ex; lia]. pose proof (Hend _ eq_refl) as Hx. unfold la_at in Hd. rewrite Ex, Hx in Hd.
          destruct Hd as [Hnw _]. apply Hnw. apply (err_wants gm Hg). auto. }
        destruct (error_turn st0 gm [TM TErr] tg [Bad lo hi] pos0 H Hg Hl Hlt Hd Hw Hrec) as (st2 & q & h1 & eh & Ef & Hs2 & Hi & Hr' & _). rewrite Hs in Hs2. injection Hs2 as <-.
        destruct (top_err _ _ _ _ _ _ H) as (q0 & st1 & Hk). rewrite Hk in Ef. cbn [firstn length map snd fold_left upd fst] in Ef. injection Ef as <- <-.
        rewrite Nat.min_r in Hi by auto. cbn [Nat.min] in Hi. rewrite Nat.min_id in Hi.
        eexists _, _, _, _. split; [apply (cls_err gm tg a b _ _ _ _ h Hsg Hi Hr'); lia|]. split; [rewrite !app_length; simpl; lia|]. lia.
      + exfalso. assert (pos0 = n) by lia. subst pos0. rewrite la_end in Hd. eapply (eoi_stuck _ _ _ _ H Hd); [|exact Hs]. apply (Hw [TM TErr] []); auto. discriminate.
    - destruct (cases tix s P [] ss w Hm _ _ _ _ H) as (d0 & Hd0 & Hc). assert (d0 = None) by (eapply decides_det; eauto). subst d0.
      destruct Hc as (_ & [(it & E0 & _)|(s' & E0 & _ & g' & ts' & ts2 & lo & hi & pos' & _ & _ & _ & _ & He & Hi)]); [congruence|]. destruct (He eq_refl) as (_ & _ & -> & ->).
      rewrite Hs in E0. injection E0 as <-. eexists _, _, _, 0. split; [apply cls_lost; [exact Hi|auto]|]. split; [rewrite app_length; simpl; lia|]. lia.
    - exfalso. rewrite la_end in Hd. eapply (eoi_stuck _ _ _ _ H Hd); [|exact Hs]. intros Hw. apply (err_wants g0 Hg) in Hw. discriminate.
    - exfalso. rewrite la_end in Hd. eapply (eoi_stuck _ _ _ _ H Hd (list_wants _ _)); eauto.
  Qed.
  Lemma cls_init : exists V, cls (ps_init P w) [] [] 0 V /\ V <= 3 * n + 1.
  Proof.
    destruct (cls_next (ps_init P w) [] [] 0 init_inv) as (V & H1 & H2 & _); [intros k []|constructor|lia|]. exists V. split; auto. lia.
  Qed.
End SepRun.
