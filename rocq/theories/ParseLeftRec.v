(** * What [parse] does with separated lists written with left recursion that recover from wrong items *)
From Coq Require Import List Arith Lia Bool Sorted.
From Verif Require Import Lib Grammar LrModel LrSpec LrSets LrStates LrNew LrTop LrMono ParseModel Trees ParseSpec ParseInv ParseComplete GramFacts ParseTerm ParseTop ParseMore ParseCover ParseRecTerm ParseAmb PropParse PropRecover SkipSpec ParseSkip StmtSpec LeftRecSpec.
Import ListNotations.

Section LeftRun.
  Context {N T E : Type} (tix : T -> nat).
  Variables (base : list (crule N T E)) (X R semi : nat) (g1 g2 g3 g4 : reducer N T E).
  Let s := left_rec base X R semi g1 g2 g3 g4.
  Hypothesis Hb : statement_rules base X R semi.
  Variables (P : parser N T E) (ss : nat) (w : list T).
  Hypothesis Hm : made s P [] ss.
  Hypothesis Hp : productive (gram s).
  Notation invat := (inv_at tix (gram s) (sx_start s) ss P w).
  Notation step := (parse_step tix P).
  Let p := pr_tab P.
  Let rs := augment (gram s) (sx_start s) ss.
  Let sr := length (gram s).
  Let nb := length base.
  Let B := map cr_rule base.
  Let Hcan : canonical rs sr p := md_can _ _ _ _ Hm.
  Notation Semi := (TM (TSym semi)).
  Let r1 := mk_rule R [NT X].
  Let r2 := mk_rule R [TM TErr].
  Let r3 := mk_rule R [NT R; Semi; NT X].
  Let r4 := mk_rule R [NT R; Semi; TM TErr].

  Lemma gram_eq : gram s = B ++ [r1; r2; r3; r4].
  Proof. unfold gram, s, left_rec. cbn [sx_rules]. rewrite map_app. reflexivity. Qed.
  Lemma B_len : length B = nb.
  Proof. apply map_length. Qed.
  Lemma sr_eq : sr = nb + 4.
  Proof. unfold sr. rewrite gram_eq, app_length, B_len. reflexivity. Qed.
  Lemma rs_eq : rs = B ++ [r1; r2; r3; r4; mk_rule ss [NT R]].
  Proof. unfold rs, augment. rewrite gram_eq, <- app_assoc. reflexivity. Qed.
  Lemma nth_rs k : nth_error rs k = if k <? nb then nth_error B k else nth_error [r1; r2; r3; r4; mk_rule ss [NT R]] (k - nb).
  Proof.
    rewrite rs_eq. destruct (Nat.ltb_spec k nb) as [H|H]; [rewrite nth_error_app1|rewrite nth_error_app2]; rewrite ?B_len; auto.
  Qed.
  Lemma nth_base k : k < nb -> nth_error rs k = nth_error B k.
  Proof. intros H. rewrite nth_rs, (proj2 (Nat.ltb_lt _ _) H). auto. Qed.
  Lemma nth_r j : nth_error rs (nb + j) = nth_error [r1; r2; r3; r4; mk_rule ss [NT R]] j.
  Proof. rewrite nth_rs, (proj2 (Nat.ltb_ge _ _)) by lia. f_equal. lia. Qed.
  Lemma nth_sr : nth_error rs sr = Some (mk_rule ss [NT R]).
  Proof. exact (augment_start (gram s) (sx_start s) ss). Qed.
  Lemma nth_list k r : nth_error rs k = Some r -> nb <= k -> k <> sr -> (k = nb /\ r = r1) \/ (k = nb + 1 /\ r = r2) \/ (k = nb + 2 /\ r = r3) \/ (k = nb + 3 /\ r = r4).
  Proof.
    intros H1 H4 H3. rewrite sr_eq in H3. replace k with (nb + (k - nb)) in H1 by lia. rewrite nth_r in H1. remember (k - nb) as j. assert (Ek : k = nb + j) by lia.
    destruct j as [|[|[|[|[|j]]]]]; cbn in H1; try (injection H1 as <-); [left|right; left|right; right; left|right; right; right|lia|destruct j; discriminate]; (split; [lia|auto]).
  Qed.
  Lemma B_In r : In r B -> r_lhs r <> R /\ r_rhs r <> [] /\ ~ In (NT R) (r_rhs r) /\ ~ In Semi (r_rhs r) /\ ~ In (TM TErr) (r_rhs r).
  Proof. intros H. apply in_map_iff in H as (c & <- & Hc). apply Hb. auto. Qed.
  Lemma B_gram r : In r B -> In r (gram s).
  Proof. rewrite gram_eq. intros H. apply in_or_app. auto. Qed.
  Lemma L_gram r : In r [r1; r2; r3; r4] -> In r (gram s).
  Proof. rewrite gram_eq. intros H. apply in_or_app. auto. Qed.
  Lemma R_ss : R <> ss.
  Proof.
    intros E0. apply (md_fresh _ _ _ _ Hm). apply nonterminals_spec. exists r3. split; [apply L_gram; simpl; auto|auto].
  Qed.
  Lemma rhs_not_ss r : In r (gram s) -> ~ In (NT ss) (r_rhs r).
  Proof. apply ss_rhs. exact (md_fresh _ _ _ _ Hm). Qed.

  (** the symbols of the items *)
  Definition base_sym (Y : sym) : Prop := Y = NT X \/ exists r, In r B /\ In Y (r_rhs r).
  Lemma base_not Y : base_sym Y -> Y <> NT R /\ Y <> Semi /\ Y <> TM TErr /\ Y <> TM TEoi /\ Y <> NT ss.
  Proof.
    intros [->|(r & Hr & HY)].
    - repeat split; try discriminate.
      + intros H. injection H as H. apply Hb. auto.
      + intros H. apply (rhs_not_ss r1); [apply L_gram; simpl; auto|]. simpl. left. congruence.
    - destruct (B_In r Hr) as (_ & _ & H1 & H2 & H3). repeat split; intros ->; try tauto.
      + eapply (md_eoi _ _ _ _ Hm); eauto. apply B_gram. auto.
      + eapply rhs_not_ss; eauto. apply B_gram. auto.
  Qed.
  Lemma X_base : base_sym (NT X).
  Proof. left. auto. Qed.
  Lemma base_rule k r : nth_error rs k = Some r -> base_sym (NT (r_lhs r)) -> k < nb /\ In r B.
  Proof.
    intros Hk HY. apply base_not in HY as (H1 & _ & _ & _ & H2). destruct (Nat.lt_ge_cases k nb) as [H|H].
    - split; auto. rewrite nth_base in Hk by auto. eapply nth_error_In; eauto.
    - exfalso. destruct (Nat.eq_dec k sr) as [->|Hs]; [rewrite nth_sr in Hk; injection Hk as <-; cbn in H2; congruence|].
      destruct (nth_list _ _ Hk H Hs) as [[_ ->]|[[_ ->]|[[_ ->]|[_ ->]]]]; cbn in H1; congruence.
  Qed.
  Lemma rule_base k r : k < nb -> nth_error rs k = Some r -> In r B.
  Proof. intros H Hk. rewrite nth_base in Hk by auto. eapply nth_error_In; eauto. Qed.

  (** where an item starts *)
  Inductive bd : list sym -> Prop := bd_nil : bd [] | bd_sep : bd [NT R; Semi].
  Definition off (g : list sym) : nat := match g with [] => 0 | _ => 2 end.
  Lemma rule_at g Y : bd g -> Y = NT X \/ Y = TM TErr -> nth_error rs (nb + (off g + match Y with NT _ => 0 | _ => 1 end)) = Some (mk_rule R (g ++ [Y])).
  Proof. intros Hg [->| ->]; rewrite nth_r; destruct Hg; reflexivity. Qed.
  Lemma base_nosemi d : Forall base_sym d -> ~ In (NT R) d /\ ~ In Semi d /\ ~ In (TM TErr) d.
  Proof. rewrite Forall_forall. intros H. repeat split; intros Hin; apply H in Hin; apply base_not in Hin; tauto. Qed.
  Lemma bd_split g d g' d' : bd g -> bd g' -> Forall base_sym d -> Forall base_sym d' -> g ++ d = g' ++ d' -> g = g' /\ d = d'.
  Proof.
    intros Hg Hg' Hd Hd' E0. apply base_nosemi in Hd, Hd'. destruct Hg, Hg'; cbn [app] in E0; auto.
    - exfalso. subst d. apply (proj1 Hd); simpl; auto.
    - exfalso. subst d'. apply (proj1 Hd'); simpl; auto.
    - injection E0 as ->. auto.
  Qed.

  (** the valid items *)
  Definition ends_list (t : term) : Prop := t = TEoi \/ t = TSym semi.
  Definition item_class (g : list sym) (it : item) : Prop :=
    (i_rule it = sr /\ (g = [] \/ g = [NT R])) \/
    (exists r, In r [r1; r2; r3; r4] /\ nb <= i_rule it < sr /\ nth_error rs (i_rule it) = Some r /\ ends_list (i_la it) /\ i_pos it <= length (r_rhs r) /\ g = firstn (i_pos it) (r_rhs r)) \/
    (exists gm d, bd gm /\ g = gm ++ d /\ Forall base_sym d /\ i_rule it < nb /\ (i_pos it <> 0 -> d <> []) /\
          (d = [] -> forall r t, nth_error rs (i_rule it) = Some r -> firsts rs (r_rhs r) t -> firsts rs [NT X] t) /\
          exists r d1, nth_error rs (i_rule it) = Some r /\ d = d1 ++ firstn (i_pos it) (r_rhs r) /\ forall u, ders B (d1 ++ [NT (r_lhs r)]) u -> exists z, der B (NT X) (u ++ z)).

  Lemma firsts_eoi t : firsts rs [TM TEoi] t -> t = TEoi.
  Proof. intros H. apply firsts_firstl in H. inversion H; subst; auto. match goal with H : firstl _ [] _ |- _ => inversion H end. Qed.
  Lemma firsts_tok x l t : firsts rs (TM (TSym x) :: l) t -> t = TSym x.
  Proof. intros H. apply firsts_firstl in H. inversion H; subst; auto. match goal with H : der _ (TM _) [] |- _ => inversion H end. Qed.
  Lemma firsts_NT r l t : In r rs -> firsts rs (r_rhs r) t -> firsts rs (NT (r_lhs r) :: l) t.
  Proof. intros Hr Hf. apply firsts_firstl. apply firsts_firstl in Hf. constructor; auto. Qed.

  Lemma start_la g it : valid rs sr g it -> i_rule it = sr -> i_la it = TEoi.
  Proof.
    induction 1 as [|g k q b r Y H IH Hr HY|g k q b r A k' r' t H IH Hr HA Hr' Hl Hf]; cbn [i_rule i_la] in *; intros E0; auto.
    exfalso. subst k'. rewrite nth_sr in Hr'. injection Hr' as <-. cbn [r_lhs] in Hl. subst A.
    destruct (Nat.eq_dec k sr) as [->|Hk].
    - rewrite nth_sr in Hr. injection Hr as <-. cbn [r_rhs] in HA. destruct q as [|q]; [|destruct q; discriminate]. cbn [nth_error] in HA. injection HA as HA. exact (R_ss HA).
    - unfold rs in Hr. rewrite augment_old in Hr by auto. eapply rhs_not_ss; [eapply nth_error_In; exact Hr|eapply nth_error_In; exact HA].
  Qed.
  Lemma snoc_firstn (l : list sym) q Y : nth_error l q = Some Y -> firstn (S q) l = firstn q l ++ [Y].
  Proof. revert q. induction l as [|Z l IH]; intros [|q] HY; simpl in *; try discriminate; [congruence|f_equal; auto]. Qed.
  Lemma der_base : (forall Y u, der (gram s) Y u -> base_sym Y -> der B Y u) /\ (forall l u, ders (gram s) l u -> Forall base_sym l -> ders B l u).
  Proof.
    apply der_ders_ind.
    - intros t _. constructor.
    - intros r u Hr _ IH HY. assert (Hin : In r B).
      { rewrite gram_eq in Hr. apply in_app_or in Hr as [Hr|Hr]; auto. exfalso. apply base_not in HY. destruct Hr as [<-|[<-|[<-|[<-|[]]]]]; cbn in HY; tauto. }
      constructor; auto. apply IH. apply Forall_forall. intros Z HZ. right. eauto.
    - constructor.
    - intros Y l u v _ IH1 _ IH2 HF. inversion HF; subst. constructor; auto.
  Qed.
  Lemma der_gram Y u : der B Y u -> der (gram s) Y u.
  Proof. apply der_incl. intros r Hr. apply B_gram. auto. Qed.
  Lemma base_word r l1 l2 : In r B -> r_rhs r = l1 ++ l2 -> exists y, ders B l2 y.
  Proof.
    intros Hr E0. destruct (ders_all (gram s) l2) as [y Hy].
    - intros Y HY. apply (Hp r); [apply B_gram; auto|]. rewrite E0. apply in_or_app. auto.
    - exists y. apply der_base; auto. apply Forall_forall. intros Y HY. right. exists r. split; auto. rewrite E0. apply in_or_app. auto.
  Qed.
  (** the rules of an item, where one may start *)
  Lemma start_class gm k r t : bd gm -> nth_error rs k = Some r -> r_lhs r = X -> item_class gm (mk_item k 0 t).
  Proof.
    intros Hg Hr Hl. assert (HX : base_sym (NT (r_lhs r))) by (left; congruence). destruct (base_rule _ _ Hr HX) as [Hk Hin].
    right. right. exists gm, []. cbn [i_rule i_pos i_la]. rewrite app_nil_r. repeat split; auto.
    - intros _ r0 t0 E0 Hf0. assert (r0 = r) by congruence. subst r0. rewrite <- Hl. apply firsts_NT; auto. eapply nth_error_In; eauto.
    - exists r, []. split; auto. split; auto. intros u Hu. cbn [app] in Hu. apply ders_one in Hu. rewrite Hl in Hu. exists []. rewrite app_nil_r. auto.
  Qed.
  Lemma items g it : valid rs sr g it -> item_class g it.
  Proof.
    induction 1 as [|g k q b r Y H IH Hr HY|g k q b r A k' r' t H IH Hr HA Hr' Hl Hf].
    - left. auto.
    - unfold item_class in *; cbn [i_rule i_pos i_la] in *.
      destruct IH as [[-> Hg]|[(r0 & Hin & Hk & Hr0 & Hla & Hq & ->)|(gm & d & Hgm & -> & Hd & Hk & Hne & Hfi & r0 & d1 & Hr0 & Ed & Hvi)]].
      + left. split; auto. right. assert (Er : r = mk_rule ss [NT R]) by (rewrite nth_sr in Hr; congruence). subst r. simpl in HY.
        assert (Hg' : g = firstn q [NT R]) by (apply (start_items _ _ _ (md_fresh _ _ _ _ Hm) _ _ H eq_refl)).
        destruct q as [|q]; [|destruct q; discriminate]. simpl in *. subst g. injection HY as <-. reflexivity.
      + right. left. exists r0. assert (r0 = r) by congruence. subst r0. split; auto. split; auto. split; auto. split; auto. split; [apply nth_error_Some_lt in HY; lia|].
        symmetry. apply snoc_firstn. auto.
      + right. right. exists gm, (d ++ [Y]). rewrite app_assoc. split; auto. split; auto. split; [apply Forall_app; split; auto; constructor; [|constructor]; right; exists r; split; [eapply rule_base; eauto|eapply nth_error_In; eauto]|].
        split; auto. split; [intros _; destruct d; discriminate|]. split; [intros E0; destruct d; discriminate|].
        exists r0, d1. assert (r0 = r) by congruence. subst r0. split; auto. split; auto. rewrite (snoc_firstn _ _ _ HY), app_assoc, <- Ed. auto.
    - destruct IH as [[E1 Hg]|[(r0 & Hin & Hk & Hr0 & Hla & Hq & ->)|(gm & d & Hgm & -> & Hd & Hk & Hne & Hfi & r0 & d1 & Hr0 & Ed & Hvi)]]; cbn [i_rule i_pos i_la] in *.
      + subst k. assert (Er : r = mk_rule ss [NT R]) by (rewrite nth_sr in Hr; congruence). subst r. simpl in HA.
        assert (Hg' : g = firstn q [NT R]) by (apply (start_items _ _ _ (md_fresh _ _ _ _ Hm) _ _ H eq_refl)).
        destruct q as [|q]; [|destruct q; discriminate]. simpl in *. injection HA as <-. subst g.
        assert (Hb' : b = TEoi) by (apply (start_la _ _ H eq_refl)).
        subst b. apply firsts_eoi in Hf. subst t. right. left. exists r'. cbn [i_rule i_pos i_la].
        assert (Hnb : nb <= k'). { destruct (Nat.lt_ge_cases k' nb) as [Hlt|]; auto. exfalso. apply (rule_base _ _ Hlt) in Hr'. apply B_In in Hr'. tauto. }
        assert (Hss : k' <> sr) by (intros ->; rewrite nth_sr in Hr'; injection Hr' as <-; cbn in Hl; apply R_ss; auto). pose proof sr_eq.
        destruct (nth_list k' r' Hr' Hnb Hss) as [[-> ->]|[[-> ->]|[[-> ->]|[-> ->]]]]; simpl; repeat split; auto; try lia; left; auto.
      + assert (r0 = r) by congruence. subst r0.
        assert (Hcase : (A = X /\ bd (firstn q (r_rhs r))) \/ (A = R /\ q = 0 /\ exists l, skipn 1 (r_rhs r) = Semi :: l)).
        { destruct Hin as [<-|[<-|[<-|[<-|[]]]]].
          - destruct q as [|q]; [injection HA as <-; left; split; auto; constructor|destruct q; discriminate].
          - destruct q as [|q]; [discriminate|destruct q; discriminate].
          - destruct q as [|[|[|q]]]; cbn in HA; [injection HA as <-; right; cbn; eauto|discriminate|injection HA as <-; left; split; auto; constructor|destruct q; discriminate].
          - destruct q as [|[|[|q]]]; cbn in HA; [injection HA as <-; right; cbn; eauto|discriminate|discriminate|destruct q; discriminate]. }
        destruct Hcase as [(-> & Hbd)|(-> & -> & l & Hsk)].
        * apply (start_class _ k' r' t Hbd Hr' Hl).
        * rewrite Hsk in Hf. cbn [app] in Hf. apply firsts_tok in Hf. subst t. right. left. exists r'. cbn [i_rule i_pos i_la firstn].
          assert (Hnb : nb <= k'). { destruct (Nat.lt_ge_cases k' nb) as [Hlt|]; auto. exfalso. apply (rule_base _ _ Hlt) in Hr'. apply B_In in Hr'. tauto. }
          assert (Hss : k' <> sr) by (intros ->; rewrite nth_sr in Hr'; injection Hr' as <-; cbn in Hl; apply R_ss; auto). pose proof sr_eq.
          destruct (nth_list k' r' Hr' Hnb Hss) as [[-> ->]|[[-> ->]|[[-> ->]|[-> ->]]]]; simpl; repeat split; auto; try lia; right; auto.
      + right. right. cbn [i_rule i_pos i_la]. assert (r0 = r) by congruence. subst r0. assert (HinB : In r B) by (eapply rule_base; eauto). assert (HY : base_sym (NT (r_lhs r'))) by (right; exists r; split; auto; rewrite Hl; eapply nth_error_In; eauto).
        destruct (base_rule _ _ Hr' HY) as [Hk' Hin']. exists gm, d. split; auto. split; auto. split; auto. split; auto. split; [tauto|]. split.
        * intros -> r0 t0 E0 Hf0. assert (r0 = r') by congruence. subst r0. assert (q = 0) by (destruct q; auto; exfalso; apply Hne; auto). subst q.
          apply (Hfi eq_refl r t0 Hr). destruct (r_rhs r) as [|Z l]; [discriminate|]. simpl in HA. injection HA as ->. subst A. apply firsts_NT; auto. eapply nth_error_In; eauto.
        * exists r', d. split; auto. split; [cbn; rewrite app_nil_r; auto|]. intros u Hu. rewrite Hl in Hu.
          assert (Er : r_rhs r = firstn q (r_rhs r) ++ [NT A] ++ skipn (S q) (r_rhs r)) by (rewrite app_assoc, <- (snoc_firstn _ _ _ HA); symmetry; apply firstn_skipn).
          destruct (base_word r (firstn q (r_rhs r) ++ [NT A]) (skipn (S q) (r_rhs r)) HinB) as [y Hy]; [rewrite <- app_assoc; exact Er|].
          destruct (Hvi (u ++ y)) as [z Hz].
          -- rewrite Ed, <- app_assoc in Hu. apply ders_app_inv in Hu as (u1 & u2 & -> & U1 & U2). rewrite <- app_assoc. apply ders_app; auto. apply ders_one. constructor; auto.
             rewrite Er. rewrite app_assoc. apply ders_app; auto.
          -- exists (y ++ z). rewrite app_assoc. auto.
  Qed.

  Lemma bd_valid g Y t : bd g -> Y = NT X \/ Y = TM TErr -> ends_list t -> valid rs sr g (mk_item (nb + (off g + match Y with NT _ => 0 | _ => 1 end)) (length g) t).
  Proof.
    assert (H0 : forall j, j < 4 -> valid rs sr [] (mk_item (nb + j) 0 TEoi)).
    { intros j Hj. destruct (nth_error rs (nb + j)) as [r'|] eqn:Er; [|apply nth_error_None in Er; rewrite rs_eq, app_length, B_len in Er; simpl in Er; lia].
      eapply valid_closure; [constructor|exact nth_sr|reflexivity|exact Er| |].
      - rewrite nth_r in Er. destruct j as [|[|[|[|j]]]]; [..|lia]; cbn in Er; injection Er as <-; reflexivity.
      - exists []. constructor. }
    assert (H1 : forall j t, j < 4 -> ends_list t -> valid rs sr [] (mk_item (nb + j) 0 t)).
    { intros j t0 Hj [->| ->]; auto. destruct (nth_error rs (nb + j)) as [r'|] eqn:Er; [|apply nth_error_None in Er; rewrite rs_eq, app_length, B_len in Er; simpl in Er; lia].
      eapply (valid_closure _ _ _ (nb + 2) 0 TEoi r3); [apply H0; lia|rewrite nth_r; reflexivity|reflexivity|exact Er| |].
      - rewrite nth_r in Er. destruct j as [|[|[|[|j]]]]; [..|lia]; cbn in Er; injection Er as <-; reflexivity.
      - cbn. exists [NT X; TM TEoi]. constructor. }
    intros Hg HY Ht. pose proof (rule_at g Y Hg HY) as Hr.
    assert (Hv : valid rs sr [] (mk_item (nb + (off g + match Y with NT _ => 0 | _ => 1 end)) 0 t)) by (apply H1; auto; destruct Hg, HY as [->| ->]; cbn; lia).
    pose proof (valid_adv _ _ _ _ _ _ _ Hv Hr (length g)) as H. cbn [r_rhs] in H. rewrite firstn_app, firstn_all, Nat.sub_diag in H. cbn [firstn app] in H. rewrite app_nil_r in H. apply H. rewrite app_length. lia.
  Qed.
  Lemma bd_complete g Y t : bd g -> Y = NT X \/ Y = TM TErr -> ends_list t -> complete rs sr (g ++ [Y]) (nb + (off g + match Y with NT _ => 0 | _ => 1 end)) t.
  Proof.
    intros Hg HY Ht. pose proof (rule_at g Y Hg HY) as Hr. exists (mk_rule R (g ++ [Y])). split; auto. cbn [r_rhs]. rewrite app_length, Nat.add_1_r.
    eapply valid_goto; [apply bd_valid; auto|exact Hr|]. cbn [r_rhs]. rewrite nth_error_app2, Nat.sub_diag by auto. reflexivity.
  Qed.
  Lemma not_list g d : bd g -> Forall base_sym d -> g ++ d <> [NT R].
  Proof. intros Hg Hd E0. apply base_nosemi in Hd. destruct Hg; cbn in E0; [subst d; apply (proj1 Hd); simpl; auto|discriminate]. Qed.
  Lemma wants_semi g d : bd g -> Forall base_sym d -> ~ wants rs sr (g ++ d) Semi.
  Proof.
    intros Hg Hd (k & q & b & r & Hv & Hr & Hq). apply items in Hv as [[Hk _]|[(r0 & Hin & Hk & Hr0 & Hla & Hq0 & E0)|(gm & d0 & Hgm & E0 & Hd0 & Hk & _)]]; cbn [i_rule i_pos i_la] in *.
    - subst k. rewrite nth_sr in Hr. injection Hr as <-. destruct q as [|q]; [discriminate|destruct q; discriminate].
    - assert (r0 = r) by congruence. subst r0. destruct Hin as [<-|[<-|[<-|[<-|[]]]]]; destruct q as [|[|[|q]]]; cbn in Hq; try discriminate; try (destruct q; discriminate); exact (not_list _ _ Hg Hd E0).
    - apply (rule_base _ _ Hk) in Hr. apply B_In in Hr. apply nth_error_In in Hq. tauto.
  Qed.
  Lemma wants_err g d k q b r : bd g -> Forall base_sym d -> valid rs sr (g ++ d) (mk_item k q b) -> nth_error rs k = Some r -> nth_error (r_rhs r) q = Some (TM TErr) -> d = [] /\ k = nb + (off g + 1).
  Proof.
    intros Hg Hd Hv Hr Hq. apply items in Hv as [[Hk _]|[(r0 & Hin & Hk & Hr0 & Hla & Hq0 & E0)|(gm & d0 & Hgm & E0 & Hd0 & Hk & _)]]; cbn [i_rule i_pos i_la] in *.
    - subst k. rewrite nth_sr in Hr. injection Hr as <-. destruct q as [|q]; [discriminate|destruct q; discriminate].
    - assert (r0 = r) by congruence. subst r0. destruct (nth_list k r Hr ltac:(lia) ltac:(lia)) as [[-> ->]|[[-> ->]|[[-> ->]|[-> ->]]]].
      + exfalso. destruct q as [|q]; [discriminate|destruct q; discriminate].
      + destruct q as [|q]; [|destruct q; discriminate]. cbn in E0. destruct Hg; cbn in E0; [subst d; auto|discriminate].
      + exfalso. destruct q as [|[|[|q]]]; cbn in Hq; try discriminate. destruct q; discriminate.
      + destruct q as [|[|[|q]]]; cbn in Hq; try discriminate; [|destruct q; discriminate]. cbn in E0. destruct Hg; cbn in E0.
        * exfalso. subst d. apply base_nosemi in Hd. apply (proj1 Hd); simpl; auto.
        * injection E0 as ->. auto.
    - exfalso. apply (rule_base _ _ Hk) in Hr. apply B_In in Hr. apply nth_error_In in Hq. tauto.
  Qed.
  Lemma complete_cases g d k t : bd g -> Forall base_sym d -> k <> sr -> complete rs sr (g ++ d) k t ->
    (k = nb + (off g + 0) /\ d = [NT X] /\ ends_list t) \/ (k < nb /\ exists r d1, nth_error rs k = Some r /\ d = d1 ++ r_rhs r /\ Forall base_sym d1).
  Proof.
    intros Hg Hd Hk Hc. destruct (complete_split rs sr _ k t (ex_intro _ _ nth_sr) Hc Hk) as (r & dd & Hr & E0 & _ & Hv0).
    apply items in Hv0 as [[Hk' _]|[(r0 & Hin & Hk' & Hr0 & Hla & Hq0 & E1)|(gm & d0 & Hgm & E1 & Hd0 & Hk' & _)]]; cbn [i_rule i_pos i_la] in *.
    - congruence.
    - left. assert (r0 = r) by congruence. subst r0. cbn [firstn] in E1. subst dd. cbn [app] in E0. apply base_nosemi in Hd.
      destruct Hd as (D1 & _ & D3). destruct (nth_list k r Hr ltac:(lia) Hk) as [[-> ->]|[[-> ->]|[[-> ->]|[-> ->]]]]; cbn [r_rhs r1 r2 r3 r4] in E0; destruct Hg; cbn [app] in E0; try discriminate; try subst d.
      + repeat split; auto.
      + exfalso. apply D3. simpl. auto.
      + exfalso. apply D1. simpl. auto.
      + injection E0 as ->. repeat split; auto.
      + exfalso. apply D1. simpl. auto.
      + exfalso. injection E0 as ->. apply D3. simpl. auto.
    - right. split; auto. exists r, d0. split; auto. subst dd. rewrite <- app_assoc in E0. apply bd_split in E0; auto; [tauto|].
      apply Forall_app. split; auto. apply Forall_forall. intros Y HY. right. exists r. split; auto. eapply rule_base; eauto.
  Qed.
  Lemma no_accept g d : bd g -> Forall base_sym d -> ~ accepting rs sr (g ++ d).
  Proof. intros Hg Hd Ha. apply (accepting_g _ _ _ (md_fresh _ _ _ _ Hm)) in Ha. exact (not_list _ _ Hg Hd Ha). Qed.
  Lemma wants_base g d t : bd g -> Forall base_sym d -> wants rs sr (g ++ d) (TM t) -> t <> TErr -> t <> TSym semi -> base_sym (TM t) /\ (d = [] -> firsts rs [NT X] t).
  Proof.
    intros Hg Hd (k & q & b & r & Hv & Hr & Hq) H1 H2. apply items in Hv as [[Hk _]|[(r0 & Hin & Hk & Hr0 & Hla & Hq0 & E0)|(gm & d0 & Hgm & E0 & Hd0 & Hk & Hne & Hfi & _)]]; cbn [i_rule i_pos i_la] in *.
    - subst k. rewrite nth_sr in Hr. injection Hr as <-. destruct q as [|q]; [discriminate|destruct q; discriminate].
    - exfalso. assert (r0 = r) by congruence. subst r0.
      destruct Hin as [<-|[<-|[<-|[<-|[]]]]]; (destruct q as [|[|[|q]]]; cbn in Hq; try discriminate; try (injection Hq as <-; congruence); destruct q; discriminate).
    - split; [right; exists r; split; [eapply rule_base; eauto|eapply nth_error_In; eauto]|]. intros ->. assert (Ed : g = gm /\ [] = d0) by (apply bd_split; auto). destruct Ed as [_ <-].
      assert (q = 0) by (destruct q; auto; exfalso; apply Hne; auto). subst q. apply (Hfi eq_refl r t Hr). destruct (r_rhs r) as [|Z l]; [discriminate|]. cbn in Hq. injection Hq as ->.
      exists l. constructor.
  Qed.
  (** what has been read of an item is the beginning of one *)
  Lemma viable g d u : bd g -> Forall base_sym d -> d <> [] -> (exists it, valid rs sr (g ++ d) it) -> ders B d u -> exists z, der B (NT X) (u ++ z).
  Proof.
    intros Hg Hd Hne [it Hv] Hu. apply items in Hv as [[_ [E0|E0]]|[(r & Hin & Hk & Hr & Hla & Hq & E0)|(gm & d0 & Hgm & E0 & Hd0 & Hk & _ & _ & r & d1 & Hr & Ed & Hvi)]].
    - exfalso. apply app_eq_nil in E0. tauto.
    - exfalso. exact (not_list _ _ Hg Hd E0).
    - assert (Ed : d = [NT X]).
      { apply base_nosemi in Hd. destruct Hd as (D1 & _ & D3). destruct Hin as [<-|[<-|[<-|[<-|[]]]]]; cbn [r_rhs r1 r2 r3 r4] in E0; destruct (i_pos it) as [|[|[|[|q]]]]; cbn [firstn] in E0; destruct Hg; cbn [app] in E0; try discriminate; try subst d; try congruence;
          try (injection E0 as ->); try congruence; exfalso; try (apply D1; simpl; auto; fail); try (apply D3; simpl; auto; fail); try (cbn in Hq; lia). }
      subst d. apply ders_one in Hu. exists []. rewrite app_nil_r. auto.
    - apply bd_split in E0; auto. destruct E0 as [<- <-]. rewrite Ed in Hu. apply ders_app_inv in Hu as (u1 & u2 & -> & U1 & U2).
      assert (HinB : In r B) by (eapply rule_base; eauto).
      destruct (base_word r (firstn (i_pos it) (r_rhs r)) (skipn (i_pos it) (r_rhs r)) HinB) as [y Hy]; [symmetry; apply firstn_skipn|].
      destruct (Hvi (u1 ++ u2 ++ y)) as [z Hz].
      + apply ders_app; auto. apply ders_one. constructor; auto. rewrite <- (firstn_skipn (i_pos it) (r_rhs r)). apply ders_app; auto.
      + exists (y ++ z). rewrite <- !app_assoc in *. auto.
  Qed.

  Lemma firsts_begin x : firsts rs [NT X] (TSym (tix x)) -> can_begin tix base X x.
  Proof.
    intros Hf. apply firsts_firstl in Hf. assert (Hin : In r1 (gram s)) by (apply L_gram; simpl; auto).
    destruct (firstl_word _ _ _ (md_fresh _ _ _ _ Hm) _ _ Hp Hf) as [z Hz].
    - exact (prod_ok _ _ (md_fresh _ _ _ _ Hm) r1 Hp Hin).
    - exists z. apply (proj1 (ders_one _ _ _)) in Hz. apply der_base; auto. apply X_base.
  Qed.
  Lemma stmt_star g u v : bd g -> der B (NT X) u -> ends_list (fst_of v TEoi) -> astar (gram s) (sx_start s) ss (g, u ++ v) (g ++ [NT X], v).
  Proof.
    intros Hg Hd Hv. pose proof (rule_at g (NT X) Hg (or_introl eq_refl)) as Hr.
    eapply (proj1 (machine_complete (gram s) (sx_start s) ss) _ _ (der_gram _ _ Hd) g _ (length g) (fst_of v TEoi) _ v).
    - exact (bd_valid g (NT X) _ Hg (or_introl eq_refl) Hv).
    - exact Hr.
    - cbn [r_rhs]. rewrite nth_error_app2, Nat.sub_diag by auto. reflexivity.
    - cbn [r_rhs]. rewrite skipn_app, skipn_all2 by lia. replace (S (length g) - length g) with 1 by lia. cbn. exists []. constructor.
  Qed.
  Lemma begin_decides g x : bd g -> can_begin tix base X x -> ~ decides rs sr p g (TSym (tix x)) None.
  Proof.
    intros Hg [z Hz] Hd. pose proof (stmt_star g _ [TSym semi] Hg Hz (or_intror eq_refl)) as Ha.
    assert (Hn : forall c c', astar (gram s) (sx_start s) ss c c' -> c = c' \/ exists c1, astep (gram s) (sx_start s) ss c c1) by (intros c c' []; eauto).
    apply Hn in Ha as [Ha|[c1 Ha]].
    - injection Ha as Ha _. apply (f_equal (@length _)) in Ha. rewrite app_length in Ha. simpl in Ha. lia.
    - eapply (stuck_step (gram s) (sx_start s) ss P g); [|exact Ha]. exact Hd.
  Qed.
  Lemma end_decides g t d0 : bd g -> ends_list t -> decides rs sr p g t d0 -> d0 = None.
  Proof.
    intros Hg Ht Hd. rewrite <- (app_nil_r g) in Hd. destruct d0 as [[q|k|]|]; cbn in Hd; auto; exfalso.
    - destruct Hd as [Hw _]. destruct Ht as [->| ->]; [|exact (wants_semi _ _ Hg (Forall_nil _) Hw)].
      apply (wants_base _ _ _ Hg (Forall_nil _)) in Hw as [Hw _]; try discriminate. apply base_not in Hw. tauto.
    - destruct Hd as (_ & _ & Hk & Hc & _). apply (complete_cases _ _ _ _ Hg (Forall_nil _) Hk) in Hc as [(_ & Hc & _)|(Hkb & r & d1 & Hr & E0 & _)]; [discriminate|].
      apply (rule_base _ _ Hkb) in Hr. apply B_In in Hr. symmetry in E0. apply app_eq_nil in E0. tauto.
    - destruct Hd as (_ & _ & Ha). exact (no_accept g [] Hg (Forall_nil _) Ha).
  Qed.

  (** ** The trees of statements *)
  Lemma app_seq (l1 l2 : list nat) a n : l1 ++ l2 = seq a n -> l1 = seq a (length l1) /\ l2 = seq (a + length l1) (n - length l1) /\ length l1 <= n.
  Proof.
    revert a n. induction l1 as [|x l1 IH]; intros a n E0; simpl in *.
    - rewrite Nat.add_0_r, Nat.sub_0_r. repeat split; auto. lia.
    - destruct n as [|n]; [discriminate|]. simpl in E0. injection E0 as -> E0. destruct (IH _ _ E0) as (H1 & H2 & H3).
      split; [f_equal; auto|]. split; [|lia]. rewrite H2. simpl. f_equal; lia.
  Qed.
  Lemma firstn_plus {A} n m (l : list A) : firstn (n + m) l = firstn n l ++ firstn m (skipn n l).
  Proof. revert l. induction n as [|n IH]; intros [|x l]; simpl; auto; [destruct m; auto|]. rewrite IH. auto. Qed.
  Lemma skipn_plus {A} a b (l : list A) : skipn a (skipn b l) = skipn (b + a) l.
  Proof. revert l. induction b as [|b IH]; intros l; [auto|]. destruct l; simpl; [destruct a; auto|apply IH]. Qed.
  Lemma cr_nth k r : nth_error rs k = Some r -> k < nb -> exists c, nth_error base k = Some c /\ cr_rule c = r /\ nth_error (pr_gens P) k = Some (cr_gen c).
  Proof.
    intros Hr Hk. rewrite (nth_base _ Hk) in Hr. unfold B in Hr. rewrite nth_error_map in Hr. destruct (nth_error base k) as [c|] eqn:Ec; [|discriminate].
    injection Hr as Hr. exists c. split; auto. split; auto. rewrite (md_gens _ _ _ _ Hm), nth_error_app1 by (unfold gens; rewrite map_length; unfold s, left_rec; cbn [sx_rules]; rewrite app_length; fold nb; lia).
    unfold gens, s, left_rec. cbn [sx_rules]. rewrite nth_error_map, nth_error_app1, Ec by auto. reflexivity.
  Qed.
  Lemma node_base k r : nth_error rs k = Some r -> base_sym (NT (r_lhs r)) -> Forall base_sym (r_rhs r).
  Proof. intros Hr Hs. apply Forall_forall. intros Y HY. right. exists r. split; auto. eapply base_rule; eauto. Qed.
  Lemma tree_value w0 : (forall Y t, twf tix rs w0 Y t -> base_sym Y -> forall pos n a, leaves t = seq pos n -> ev (pr_gens P) w0 t = GOk a -> value tix base Y (firstn n (skipn pos w0)) a) /\
    (forall l ts, twfs tix rs w0 l ts -> Forall base_sym l -> forall pos n args, flat_map leaves ts = seq pos n -> gmap (ev (pr_gens P) w0) ts = GOk args -> values tix base l (firstn n (skipn pos w0)) args).
  Proof.
    apply twf_twfs_ind.
    - intros i x Hx _ pos n a Hl He. simpl in Hl, He. destruct n as [|[|n]]; try discriminate. injection Hl as ->. rewrite Hx in He. injection He as <-.
      rewrite (skipn_cons _ _ _ Hx). simpl. constructor.
    - intros lo hi _ _ HY. apply base_not in HY. tauto.
    - intros k r ts Hr _ IH HY pos n a Hl He. destruct (base_rule _ _ Hr HY) as [Hk _]. destruct (cr_nth _ _ Hr Hk) as (c & Hc & <- & Hg). simpl in Hl, He.
      destruct (gmap _ ts) as [args| |] eqn:Eg; try discriminate. simpl in He. unfold call in He. rewrite Hg in He. destruct (cr_gen c args) as [v| |] eqn:Ec; try discriminate. simpl in He. injection He as <-.
      econstructor; eauto; [eapply nth_error_In; eauto|]. apply IH; auto. eapply node_base; eauto.
    - intros _ pos n args Hl He. simpl in *. destruct n; [|discriminate]. injection He as <-. constructor.
    - intros Y l t ts _ IH1 _ IH2 HF pos n args Hl He. inversion HF as [|? ? H1 H2]; subst. simpl in Hl, He. apply app_seq in Hl as (L1 & L2 & L3).
      destruct (ev _ _ t) as [a| |] eqn:Ea; try discriminate. simpl in He. destruct (gmap _ ts) as [args'| |] eqn:Eg; try discriminate. simpl in He. injection He as <-.
      replace n with (length (leaves t) + (n - length (leaves t))) by lia. rewrite firstn_plus, skipn_plus. constructor; auto.
  Qed.
  Lemma clean_base w0 : (forall Y t, twf tix rs w0 Y t -> base_sym Y -> clean t = true /\ leaves t <> []) /\
    (forall l ts, twfs tix rs w0 l ts -> Forall base_sym l -> forallb clean ts = true /\ (l <> [] -> flat_map leaves ts <> [])).
  Proof.
    apply twf_twfs_ind.
    - intros i x _ _. split; [auto|discriminate].
    - intros lo hi _ _ HY. apply base_not in HY. tauto.
    - intros k r ts Hr _ IH HY. destruct (IH (node_base _ _ Hr HY)) as [H1 H2]. simpl. split; auto. apply H2. destruct (base_rule _ _ Hr HY) as [_ Hin]. apply (B_In _ Hin).
    - intros _. split; auto.
    - intros Y l t ts _ IH1 _ IH2 HF. inversion HF as [|? ? H1 H2]; subst. destruct (IH1 H1) as [A1 A2], (IH2 H2) as [A3 A4]. simpl. rewrite A1, A3. split; auto.
      intros _ E0. apply app_eq_nil in E0. tauto.
  Qed.
  Lemma tok_slice w0 pos n : pos + n <= length w0 -> map (tok tix w0) (seq pos n) = kinds tix (firstn n (skipn pos w0)).
  Proof.
    revert pos. induction n as [|n IH]; intros pos Hl; auto. simpl. destruct (nth_error w0 pos) as [x|] eqn:Ex; [|apply nth_error_None in Ex; lia].
    rewrite (skipn_cons _ _ _ Ex). simpl. unfold tok at 1. rewrite Ex. f_equal. apply IH. lia.
  Qed.
  Lemma tree_stmt w0 t pos n : twf tix rs w0 (NT X) t -> leaves t = seq pos n -> pos + n <= length w0 -> is_stmt tix base X (firstn n (skipn pos w0)).
  Proof.
    intros Ht Hl Hn. destruct (proj1 (clean_base w0) _ _ Ht X_base) as [Hc _]. pose proof (proj1 (tree_der tix rs w0) _ _ Ht Hc) as Hd. rewrite Hl, tok_slice in Hd by auto.
    unfold is_stmt. apply der_base; [|apply X_base]. apply (proj1 (der_aug0 _ _ _ (md_fresh _ _ _ _ Hm))) in Hd; auto. apply (base_not _ X_base).
  Qed.
  Lemma value_tree : (forall Y u a, value tix base Y u a -> forall w0 pos, firstn (length u) (skipn pos w0) = u ->
      exists t, twf tix (gram s) w0 Y t /\ clean t = true /\ leaves t = seq pos (length u) /\ ev (pr_gens P) w0 t = GOk a) /\
    (forall l u args, values tix base l u args -> forall w0 pos, firstn (length u) (skipn pos w0) = u ->
      exists ts, twfs tix (gram s) w0 l ts /\ forallb clean ts = true /\ flat_map leaves ts = seq pos (length u) /\ gmap (ev (pr_gens P) w0) ts = GOk args).
  Proof.
    apply value_values_ind.
    - intros x w0 pos Hu. assert (Hx : nth_error w0 pos = Some x).
      { simpl in Hu. rewrite <- (Nat.add_0_r pos), <- nth_skip. destruct (skipn pos w0); [discriminate|]. simpl in Hu. injection Hu as ->. reflexivity. }
      exists (Leaf pos). split; [constructor; auto|]. split; auto. split; auto. simpl. rewrite Hx. auto.
    - intros c u args v Hc _ IH Hv w0 pos Hu. destruct (IH w0 pos Hu) as (ts & H1 & H2 & H3 & H4). apply In_nth_error in Hc as [k Hk]. exists (Node k ts).
      assert (Hkb : k < nb) by (apply nth_error_Some; congruence). assert (Hr : nth_error rs k = Some (cr_rule c)) by (rewrite nth_base by auto; unfold B; rewrite nth_error_map, Hk; auto).
      split; [constructor; auto; rewrite <- Hr; symmetry; apply augment_old; rewrite gram_eq, app_length, B_len; simpl; lia|]. split; auto. split; auto.
      destruct (cr_nth _ _ Hr Hkb) as (c' & Hc' & _ & Hg). assert (c' = c) by congruence. subst c'. simpl. rewrite H4. simpl. unfold call. rewrite Hg, Hv. auto.
    - intros w0 pos _. exists []. repeat split; auto. constructor.
    - intros Y l u u' a args _ IH1 _ IH2 w0 pos Hu. rewrite app_length, firstn_plus in Hu.
      assert (Hl : length (firstn (length u) (skipn pos w0)) = length u).
      { apply (f_equal (@length _)) in Hu. rewrite !app_length in Hu. pose proof (firstn_le_length (length u) (skipn pos w0)). pose proof (firstn_le_length (length u') (skipn (length u) (skipn pos w0))). lia. }
      assert (E1 : firstn (length u) (skipn pos w0) = u).
      { apply (f_equal (firstn (length u))) in Hu. rewrite !firstn_app, Hl, Nat.sub_diag in Hu. simpl in Hu. rewrite !app_nil_r, firstn_firstn, Nat.min_id, firstn_all in Hu. auto. }
      rewrite E1, skipn_plus in Hu. apply app_inv_head in Hu. destruct (IH1 _ _ E1) as (t & A1 & A2 & A3 & A4), (IH2 _ _ Hu) as (ts & B1 & B2 & B3 & B4).
      exists (t :: ts). split; [constructor; auto|]. simpl. rewrite A2, A3, A4, B2, B3, B4, app_length, seq_app. auto.
  Qed.
  Lemma trees_word w0 l ts pos n : twfs tix rs w0 l ts -> Forall base_sym l -> flat_map leaves ts = seq pos n -> pos + n <= length w0 -> ders B l (kinds tix (firstn n (skipn pos w0))).
  Proof.
    intros Ht Hl Hs Hn. destruct (proj2 (clean_base w0) _ _ Ht Hl) as [Hc _]. pose proof (proj2 (tree_der tix rs w0) _ _ Ht Hc) as Hd. rewrite Hs, tok_slice in Hd by auto.
    apply der_base; auto. apply (proj2 (der_aug0 _ _ _ (md_fresh _ _ _ _ Hm))) in Hd; auto. intros H. rewrite Forall_forall in Hl. apply Hl in H. apply base_not in H. tauto.
  Qed.
  Lemma rewr_tm (l l' : list sym) t : rewr (gram s) l l' -> In (TM t) l -> In (TM t) l'.
  Proof.
    induction 1 as [|l1 r l2 l' Hr H IH]; auto. intros Hin. apply IH. rewrite !in_app_iff in *. simpl in Hin. destruct Hin as [Hin|[Hin|Hin]]; auto. discriminate.
  Qed.
  Lemma rewr_base l l' : rewr (gram s) l l' -> Forall base_sym l -> Forall base_sym l'.
  Proof.
    induction 1 as [|l1 r l2 l' Hr H IH]; auto. intros HF. apply IH. apply Forall_app in HF as [F1 F2]. inversion F2 as [|? ? F3 F4]. apply Forall_app. split; auto. apply Forall_app. split; auto.
    assert (Hin : In r B).
    { rewrite gram_eq in Hr. apply in_app_or in Hr as [Hr|Hr]; auto. exfalso. apply base_not in F3. destruct Hr as [<-|[<-|[<-|[<-|[]]]]]; cbn in F3; tauto. }
    apply Forall_forall. intros Z HZ. right. eauto.
  Qed.
  Lemma not_cyclic : ~ cyclic (gram s) (sx_start s).
  Proof.
    intros (r & Hr & Hl & Hw). change (r_lhs r = R) in Hl. change (sx_start s) with R in Hw. rewrite gram_eq in Hr. apply in_app_or in Hr as [Hr|Hr].
    - apply B_In in Hr. tauto.
    - destruct Hr as [<-|[<-|[<-|[<-|[]]]]]; cbn [r_rhs r1 r2 r3 r4] in Hw.
      + apply rewr_base in Hw; [|constructor; [apply X_base|constructor]]. inversion Hw as [|? ? HY _]. apply base_not in HY. tauto.
      + apply (rewr_tm _ _ TErr) in Hw; [|simpl; auto]. destruct Hw as [Hw|[]]; discriminate.
      + apply (rewr_tm _ _ (TSym semi)) in Hw; [|simpl; auto]. destruct Hw as [Hw|[]]; discriminate.
      + apply (rewr_tm _ _ (TSym semi)) in Hw; [|simpl; auto]. destruct Hw as [Hw|[]]; discriminate.
  Qed.
  Lemma gram_nth j : j < 4 -> nth_error (gram s) (nb + j) = nth_error [r1; r2; r3; r4] j.
  Proof. intros Hj. rewrite gram_eq, nth_error_app2; rewrite B_len; [|lia]. f_equal. lia. Qed.
  Lemma value_unique u a1 a2 : value tix base (NT X) u a1 -> value tix base (NT X) u a2 -> a1 = a2.
  Proof.
    intros H1 H2. assert (Hu : firstn (length u) (skipn 0 u) = u) by (simpl; apply firstn_all).
    destruct (proj1 value_tree _ _ _ H1 u 0 Hu) as (t1 & A1 & A2 & A3 & A4), (proj1 value_tree _ _ _ H2 u 0 Hu) as (t2 & B1 & B2 & B3 & B4).
    assert (G : forall t, twf tix (gram s) u (NT X) t -> clean t = true -> leaves t = seq 0 (length u) -> proper_tree tix s u (Node (nb + 0) [t])).
    { intros t G1 G2 G3. split; [split|].
      - change (sx_start s) with (r_lhs r1). constructor; [rewrite gram_nth; [reflexivity|lia]|]. cbn [r_rhs r1]. constructor; auto. constructor.
      - simpl. rewrite G3, app_nil_r. auto.
      - simpl. rewrite G2. auto. }
    pose proof (unique_tree tix s P [] ss u Hm _ _ eq_refl not_cyclic (G _ A1 A2 A3) (G _ B1 B2 B3)) as E0. injection E0 as ->. congruence.
  Qed.

  (** ** Turns *)
  Definition rec_ok (g : list sym) (st : pstate N T) : Prop := forall k, In k (ps_rec st) -> k = nb + (off g + 1).
  Lemma rec_nil g st : ps_rec st = [] -> rec_ok g st.
  Proof. intros E0 k Hk. rewrite E0 in Hk. destruct Hk. Qed.
  Lemma read_rec (st : pstate N T) : ps_rec (ps_read tix st) = ps_rec st.
  Proof. unfold ps_read. destruct (ps_buf st); auto. destruct (ps_iter st); auto. Qed.
  Lemma read_state (st : pstate N T) : ps_state (ps_read tix st) = ps_state st.
  Proof. unfold ps_read. destruct (ps_buf st); auto. destruct (ps_iter st); auto. Qed.
  Lemma errs_ok g q ers : bd g -> state_of p g = Some q -> aget eqb q (p_errors p) = Some ers -> forall k, In k ers -> k = nb + (off g + 1).
  Proof.
    intros Hb' Hg He k Hk. pose proof (can_errors _ _ _ Hcan _ _ Hg) as H. rewrite He in H. apply H in Hk as (q0 & la & r & Hv & Hr & Hq). rewrite <- (app_nil_r g) in Hv.
    apply (wants_err g [] _ _ _ _ Hb' (Forall_nil _) Hv Hr Hq).
  Qed.
  Lemma bd_wants_error g : bd g -> wants_error rs sr g (nb + (off g + 1)).
  Proof.
    intros Hg. exists (length g), TEoi, (mk_rule R (g ++ [TM TErr])). split; [exact (bd_valid g (TM TErr) TEoi Hg (or_intror eq_refl) (or_introl eq_refl))|].
    split; [exact (rule_at g (TM TErr) Hg (or_intror eq_refl))|]. cbn [r_rhs]. rewrite nth_error_app2, Nat.sub_diag by auto. reflexivity.
  Qed.
  Lemma bd_wants g : bd g -> wants rs sr g (TM TErr).
  Proof. intros Hg. destruct (bd_wants_error g Hg) as (q & la & r & H). exists (nb + (off g + 1)), q, la, r. exact H. Qed.
  Lemma recover_here eoi g q rc back head ehead (stk0 : list (nat * entry N)) : bd g -> eoi = false \/ back = false -> state_of p g = Some q -> (forall k, In k rc -> k = nb + (off g + 1)) ->
    exists rc', (forall k, In k rc' -> k = nb + (off g + 1)) /\ recover p eoi rc back q head ehead stk0 = Some (q, stk0, rc', back, head, ehead).
  Proof.
    intros Hg Hx Hq Hrc. pose proof (bd_wants_error g Hg) as Hw. assert (Hn : negb eoi || negb back = true) by (destruct Hx as [->| ->]; auto; apply orb_true_r).
    pose proof (can_errors _ _ _ Hcan _ _ Hq) as He. destruct (aget eqb q (p_errors p)) as [ers|] eqn:Ee; [|exfalso; eapply He; eauto].
    destruct He as [Hne He]. apply He in Hw.
    destruct rc as [|y rc].
    - exists ers. split; [eapply errs_ok; eauto|]. destruct stk0; cbn [recover]; rewrite Hn, Ee; reflexivity.
    - exists (inter_nat (y :: rc) ers). split; [intros k Hk; apply filter_In in Hk as [Hk _]; auto|].
      assert (Hd : disjoint_nat (y :: rc) ers = false).
      { unfold disjoint_nat. cbn [forallb]. replace (existsb (Nat.eqb y) ers) with true; [reflexivity|]. symmetry. apply existsb_exists. exists (nb + (off g + 1)). split; auto. apply Nat.eqb_eq. apply Hrc. left. auto. }
      destruct stk0; cbn [recover]; rewrite Hn, Ee, Hd; reflexivity.
  Qed.
  Lemma recover_to n g : bd g -> forall d (stk0 : list (nat * entry N)) ts back q head ehead rc, stk tix (gram s) (sx_start s) ss P w n stk0 (g ++ d) ts -> state_of p (g ++ d) = Some q ->
    (forall d1 d2, d = d1 ++ d2 -> d1 <> [] -> ~ wants rs sr (g ++ d1) (TM TErr)) -> (forall k, In k rc -> k = nb + (off g + 1)) ->
    exists q' rc', state_of p g = Some q' /\ (forall k, In k rc' -> k = nb + (off g + 1)) /\
      recover p false rc back q head ehead stk0 = Some (q', skipn (length d) stk0, rc', match d with [] => back | _ => true end,
        fst (fold_left upd (map snd (firstn (length d) stk0)) (head, ehead)), snd (fold_left upd (map snd (firstn (length d) stk0)) (head, ehead))).
  Proof.
    intros Hg d. induction d as [|Y d IH] using rev_ind; intros stk0 ts back q head ehead rc Hk Hq Hw Hrc.
    - rewrite app_nil_r in Hq. destruct (recover_here false g q rc back head ehead stk0 Hg (or_introl eq_refl) Hq Hrc) as (rc' & H1 & H2). exists q, rc'. split; auto.
    - assert (Hn : aget eqb q (p_errors p) = None).
      { destruct (aget eqb q (p_errors p)) as [ers|] eqn:Ee; auto. exfalso. apply (Hw (d ++ [Y]) []); [rewrite app_nil_r; auto|destruct d; discriminate|]. eapply errors_wants; eauto. }
      rewrite app_assoc in Hk. inversion Hk as [E0|st1 g0 ts0 s0 e Y0 t0 Hk0 Hs0 He0 _ E1 E2 E3]; [destruct (g ++ d); discriminate|]. apply app_inj_tail in E2 as [-> ->].
      replace (length (d ++ [Y])) with (S (length d)) by (rewrite app_length; simpl; lia). cbn [skipn firstn map fold_left snd].
      assert (Hw' : forall d1 d2, d = d1 ++ d2 -> d1 <> [] -> ~ wants rs sr (g ++ d1) (TM TErr)) by (intros d1 d2 ->; apply (Hw d1 (d2 ++ [Y])); rewrite app_assoc; auto).
      assert (G : forall h eh, exists q' rc', state_of p g = Some q' /\ (forall k, In k rc' -> k = nb + (off g + 1)) /\
         recover p false rc true s0 h eh st1 = Some (q', skipn (length d) st1, rc', match d ++ [Y] with [] => back | _ => true end,
           fst (fold_left upd (map snd (firstn (length d) st1)) (h, eh)), snd (fold_left upd (map snd (firstn (length d) st1)) (h, eh)))).
      { intros h eh. destruct (IH st1 ts0 true s0 h eh rc Hk0 Hs0 Hw' Hrc) as (q' & rc' & A1 & A2 & A3). exists q', rc'. split; auto. split; auto. rewrite A3. destruct d; reflexivity. }
      destruct e as [v i|k i|lo hi|]; cbn [recover negb orb upd fst snd]; rewrite Hn; [apply G|apply G|apply G|destruct He0].
  Qed.

  Lemma twf_fun w0 t Y Y' : twf tix rs w0 Y t -> twf tix rs w0 Y' t -> Y = Y'.
  Proof. intros H1 H2. inversion H1; subst; inversion H2; subst; auto; congruence. Qed.
  Lemma twfs_fun w0 ts : forall l l', twfs tix rs w0 l ts -> twfs tix rs w0 l' ts -> l = l'.
  Proof.
    induction ts as [|t ts IH]; intros l l' H1 H2; inversion H1; subst; inversion H2; subst; auto. f_equal; [eapply twf_fun; eauto|auto].
  Qed.
  Lemma inv_len st g ts pos : invat st g ts pos -> length (ps_stack st) = length g /\ length ts = length g.
  Proof.
    intros Hinv. pose proof (inv_stk _ _ _ _ _ _ _ _ _ _ Hinv) as Hk. apply (stk_len _ _ _ _ _ _ (md_len _ _ _ _ Hm)) in Hk. lia.
  Qed.
  Lemma app_len_inj {A} (a b c d : list A) : a ++ b = c ++ d -> length a = length c -> a = c.
  Proof. revert c. induction a as [|x a IH]; intros [|y c] H1 H2; simpl in *; try discriminate; auto. injection H1 as -> H1. f_equal. eapply IH; eauto. Qed.
  Lemma error_turn st g d tg td pos : invat st (g ++ d) (tg ++ td) pos -> bd g -> length tg = length g -> pos < length w -> decides rs sr p (g ++ d) (la_at tix w pos) None ->
    (forall d1 d2, d = d1 ++ d2 -> d1 <> [] -> ~ wants rs sr (g ++ d1) (TM TErr)) -> rec_ok g st ->
    exists st' q h eh, fold_left upd (map snd (firstn (length d) (ps_stack st))) (pos, pos) = (h, eh) /\ step st = inl st' /\
      invat st' (g ++ [TM TErr]) (tg ++ [Bad (Nat.min h eh) pos]) (match d with [] => pos | _ => S (Nat.min h pos) end) /\ rec_ok g st' /\
      ps_stack st' = (q, EErr (Nat.min h eh) pos) :: skipn (length d) (ps_stack st).
  Proof.
    intros Hinv Hg Hlen Hlt Hd Hw Hrec.
    destruct (read_inv tix _ _ _ _ _ (md_len _ _ _ _ Hm) _ _ _ _ Hinv) as [Hread (t0 & i0 & buf0 & Eb0 & Hcase)].
    destruct Hcase as [(x & Hx & -> & -> & Hlt0 & ->)|(_ & _ & Hp' & _)]; [|lia].
    pose proof (inv_stk _ _ _ _ _ _ _ _ _ _ Hread) as Hk. rewrite read_stack in Hk.
    pose proof (inv_state _ _ _ _ _ _ _ _ _ _ Hinv) as Hst. fold p in Hst.
    assert (Hla : la_at tix w pos = TSym (tix x)) by (unfold la_at; rewrite Hx; reflexivity). rewrite Hla in Hd.
    assert (Hact : act p (ps_state st) (TSym (tix x)) = Ok None).
    { destruct (act_state (gram s) (sx_start s) ss P Hcan _ _ (TSym (tix x)) Hst) as (d0 & Ha & Hdd). fold p in Ha. rewrite Ha. f_equal. eapply decides_det; eauto. }
    destruct (recover_to _ _ Hg d (ps_stack st) (tg ++ td) false (ps_state st) pos pos (ps_rec st) Hk Hst Hw Hrec) as (q & rc & Hq & Hrc & Erec).
    destruct (fold_left upd (map snd (firstn (length d) (ps_stack st))) (pos, pos)) as [h eh] eqn:Ef. cbn [fst snd] in Erec.
    destruct (act_state (gram s) (sx_start s) ss P Hcan _ _ TErr Hq) as (dE & HaE & HdE). fold p in HaE.
    pose proof (bd_wants g Hg) as HwE.
    destruct dE as [[q'|k'|]|]; try (destruct HdE as [HdE _]; contradiction).
    assert (Hstep : exists st', step st = inl st' /\ ps_stack st' = (q, EErr (Nat.min h eh) pos) :: skipn (length d) (ps_stack st) /\ ps_rec st' = rc).
    { eexists. split.
      - unfold parse_step. cbv zeta. rewrite Eb0. fold p. rewrite read_state, Hact, read_rec, read_stack, Erec.
        rewrite put_back_ok by lia. rewrite HaE. reflexivity.
      - split; reflexivity. }
    destruct Hstep as (st' & Hs & Hstk' & Hrec'). exists st', q, h, eh. split; auto. split; auto.
    destruct (cases tix s P [] ss w Hm _ _ _ _ Hinv) as (d0 & Hd0 & Hc). rewrite Hla in Hd0. assert (d0 = None) by (eapply decides_det; eauto). subst d0. destruct Hc as [_ Hc].
    destruct Hc as [(it & E0 & _)|(s' & E0 & _ & g' & ts' & ts2 & lo & hi & pos' & Ets & _ & _ & _ & _ & Hi)]; [congruence|]. rewrite E0 in Hs. injection Hs as <-.
    assert (Hne : w <> []) by (intros ->; simpl in Hlt; lia).
    assert (Hts : ts' = tg).
    { assert (Hl : length ts' = length tg).
      { pose proof (inv_len _ _ _ _ Hi) as [L1 L2]. rewrite Hstk' in L1. rewrite !app_length in *. cbn [length] in *. rewrite skipn_length in L1. pose proof (inv_len _ _ _ _ Hinv) as [L3 L4]. rewrite !app_length in *. lia. }
      symmetry. eapply app_len_inj; [exact Ets|congruence]. }
    subst ts'.
    assert (Hgg : g' = g).
    { pose proof (inv_twfs tix _ _ _ _ _ (md_len _ _ _ _ Hm) _ _ _ _ (or_introl Hne) Hi) as T1. pose proof (inv_twfs tix _ _ _ _ _ (md_len _ _ _ _ Hm) _ _ _ _ (or_introl Hne) Hinv) as T2.
      apply twfs_app_inv in T1 as (a1 & a2 & E1 & T1 & T1'). apply twfs_app_inv in T2 as (b1 & b2 & E2 & T2 & _).
      assert (E3 : tg = a1) by (eapply app_len_inj; [exact E1|]; pose proof (twfs_len _ _ _ _ _ T1'); apply (f_equal (@length _)) in E1; rewrite !app_length in E1; simpl in *; lia).
      assert (E4 : tg = b1) by (eapply app_len_inj; [exact E2|]; pose proof (twfs_len _ _ _ _ _ T2); lia).
      rewrite <- E3 in T1. rewrite <- E4 in T2. exact (twfs_fun _ _ _ _ T1 T2). }
    subst g'.
    assert (Hbad : lo = Nat.min h eh /\ hi = pos).
    { pose proof (inv_stk _ _ _ _ _ _ _ _ _ _ Hi) as Hk'. rewrite Hstk' in Hk'. inversion Hk' as [|st1 g0 ts0 s0 e Y0 t0 _ _ He0 _ E1 E2 E3]. apply app_inj_tail in E2 as [_ ->]. apply app_inj_tail in E3 as [_ ->]. destruct He0 as (_ & He0 & _). injection He0 as -> ->. auto. }
    destruct Hbad as [-> ->].
    assert (Hsyms : ps_syms s' = ps_syms (ps_read tix st)) by (apply (step_shape tix P st s' E0)).
    assert (Hbuf : ps_buf s' = (if (match d with [] => false | _ => true end) then tl (toks tix h (firstn (pos - h) (skipn h (ps_syms (ps_read tix st)))) ++ (TSym (tix x), pos) :: toks tix (S pos) (skipn (S pos) (ps_syms (ps_read tix st)))) else toks tix h (firstn (pos - h) (skipn h (ps_syms (ps_read tix st)))) ++ (TSym (tix x), pos) :: toks tix (S pos) (skipn (S pos) (ps_syms (ps_read tix st))))).
    { revert E0. unfold parse_step. cbv zeta. rewrite Eb0. fold p. rewrite read_state, Hact, read_rec, read_stack, Erec. rewrite put_back_ok by lia. rewrite HaE. intros E0. injection E0 as <-. reflexivity. }
    pose proof (put_back_ok tix (ps_syms (ps_read tix st)) h pos ltac:(lia)) as Hpb.
    destruct (rec_pos tix s P [] ss w Hm st _ _ pos s' _ _ pos' (TSym (tix x)) pos _ q (skipn (length d) (ps_stack st)) rc (match d with [] => false | _ => true end) h eh _ Hinv Hi Hsyms Eb0
      ltac:(rewrite read_rec, read_state; exact Erec) Hpb Hbuf) as [Hpos' _].
    split; [destruct d; rewrite Hpos' in Hi; exact Hi|]. split; [intros k Hk'; rewrite Hrec' in Hk'; auto|exact Hstk'].
    Unshelve. all: try exact [].
  Qed.

  Lemma shift_turn st g ts pos x q : invat st g ts pos -> nth_error w pos = Some x -> decides rs sr p g (TSym (tix x)) (Some (Shift q)) ->
    exists st' q', step st = inl st' /\ invat st' (g ++ [TM (TSym (tix x))]) (ts ++ [Leaf pos]) (S pos) /\ ps_rec st' = ps_rec st /\ ps_stack st' = (q', ETok (tix x) pos) :: ps_stack st.
  Proof.
    intros Hinv Hx Hd. assert (Hla : la_at tix w pos = TSym (tix x)) by (unfold la_at; rewrite Hx; reflexivity).
    destruct (cases tix s P [] ss w Hm _ _ _ _ Hinv) as (d0 & Hd0 & Hc). rewrite Hla in Hd0. assert (d0 = Some (Shift q)) by (eapply decides_det; eauto). subst d0.
    destruct Hc as (_ & _ & st' & Hs & Hi). rewrite Hla in Hi. exists st'.
    destruct (read_inv tix _ _ _ _ _ (md_len _ _ _ _ Hm) _ _ _ _ Hinv) as [_ (t0 & i0 & buf0 & Eb0 & Hcase)].
    destruct Hcase as [(x0 & Hx0 & -> & -> & Hlt0 & ->)|(_ & _ & Hp' & _)]; [|exfalso; assert (pos < length w) by (apply nth_error_Some; congruence); lia]. assert (x0 = x) by congruence. subst x0.
    pose proof (inv_state _ _ _ _ _ _ _ _ _ _ Hinv) as Hst. fold p in Hst.
    assert (Hact : act p (ps_state st) (TSym (tix x)) = Ok (Some (Shift q))).
    { destruct (act_state (gram s) (sx_start s) ss P Hcan _ _ (TSym (tix x)) Hst) as (d1 & Ha & Hdd). fold p in Ha. rewrite Ha. f_equal. eapply decides_det; eauto. }
    exists (ps_state st). split; auto. split; auto.     unfold parse_step in Hs. cbv zeta in Hs. rewrite Eb0 in Hs. fold p in Hs. rewrite read_state, Hact, read_stack in Hs. rewrite read_rec in Hs. injection Hs as <-. split; reflexivity.
  Qed.

  Definition bad_end (st : pstate N T) : Prop := ends step st Panic \/ exists e it, ends step st (Ok (RReducer e, it)).
  Lemma bad_reaches st st' : reaches step st st' -> bad_end st' -> bad_end st.
  Proof. intros Hr [H|(e & it & H)]; [left|right; exists e, it]; eapply reaches_ends; eauto. Qed.

  Lemma reduce_turn_one st d k r ts pos : invat st (d ++ r_rhs r) ts pos -> decides rs sr p (d ++ r_rhs r) (la_at tix w pos) (Some (Reduce k)) -> nth_error rs k = Some r -> (forall k', In k' (ps_rec st) -> k' = k) ->
    (bad_end st /\ forall st', step st <> inl st') \/ exists ts1 ts2 args gen v st' q v' i, ts = ts1 ++ ts2 /\ length ts1 = length d /\ twfs tix rs w (r_rhs r) ts2 /\ gmap (ev (pr_gens P) w) ts2 = GOk args /\
      nth_error (pr_gens P) k = Some gen /\ gen args = GOk v /\ step st = inl st' /\ invat st' (d ++ [NT (r_lhs r)]) (ts1 ++ [Node k ts2]) pos /\ ps_rec st' = [] /\
      ev (pr_gens P) w (Node k ts2) = GOk (NonTerminal v) /\
      i = first_index (map snd (rev (firstn (length (r_rhs r)) (ps_stack st)))) (length (ps_syms (ps_read tix st))) /\
      ps_stack st' = (q, ENon v' i) :: skipn (length (r_rhs r)) (ps_stack st).
  Proof.
    intros Hinv Hd Hr Hrec. destruct (cases tix s P [] ss w Hm _ _ _ _ Hinv) as (d0 & Hd0 & Hc). assert (d0 = Some (Reduce k)) by (eapply decides_det; eauto). subst d0.
    destruct Hc as [(r0 & _ & _ & E0 & _)|(r0 & dd & ts1 & ts2 & args & gen & Hr0 & Eg & _ & _ & Ets & Hl & Htw & Hgm & Hgen & Hc)].
    - left. split; [left; apply ends_step; exact E0|congruence].
    - assert (r0 = r) by (unfold rs in *; congruence). subst r0. apply app_inv_tail in Eg. subst dd. destruct (gen args) as [v|e|] eqn:Eg.
      + right. destruct Hc as (st' & Hs & Hi).
        pose proof (inv_state _ _ _ _ _ _ _ _ _ _ Hinv) as Hst. fold p in Hst.
        destruct (read_inv tix _ _ _ _ _ (md_len _ _ _ _ Hm) _ _ _ _ Hinv) as [_ (t0 & i0 & buf0 & Eb0 & Hcase)].
        assert (Hla : la_at tix w pos = t0).
        { unfold la_at. destruct Hcase as [(x0 & Hx0 & -> & _)|(-> & _ & Hp' & _)]; [rewrite Hx0; auto|]. replace (nth_error w pos) with (@None T); auto. symmetry. apply nth_error_None. lia. }
        assert (Hact : act p (ps_state st) t0 = Ok (Some (Reduce k))).
        { destruct (act_state (gram s) (sx_start s) ss P Hcan _ _ t0 Hst) as (d1 & Ha & Hdd). fold p in Ha. rewrite Ha. f_equal. rewrite Hla in Hd. eapply decides_det; eauto. }
        assert (Hk : ps_rec st' = [] /\ exists q v', ps_stack st' = (q, ENon v' (first_index (map snd (rev (firstn (length (r_rhs r)) (ps_stack st)))) (length (ps_syms (ps_read tix st))))) :: skipn (length (r_rhs r)) (ps_stack st)).
        { pose proof Hs as Hs'. unfold parse_step in Hs'. cbv zeta in Hs'. rewrite Eb0 in Hs'. fold p in Hs'. rewrite read_state, Hact, read_stack, (can_rules _ _ _ Hcan), Hr in Hs'.
          destruct (_ <? _); [discriminate|]. destruct (reduce_args _ _ _) as [args'| |]; try discriminate.
          destruct (nth_error (pr_gens P) k) as [g0|]; [|discriminate]. destruct (g0 args'); try discriminate. destruct (aget eqb _ (p_goto p)) as [row|]; [|discriminate].
          destruct (aget eqb (r_lhs r) row) as [q|]; [|discriminate]. rewrite read_rec in Hs'. injection Hs' as <-. cbn [ps_stack ps_rec]. split; [|eauto]. destruct (ps_rec st) as [|k0 l0]; [reflexivity|]. cbn [existsb]. rewrite (Hrec k0) by (left; auto). rewrite Nat.eqb_refl. reflexivity. }
        destruct Hk as (Hk0 & q1 & v1 & Hk). exists ts1, ts2, args, gen, v, st', q1, v1. eexists.
        repeat (split; [solve [auto]|]). split; [|split; [reflexivity|exact Hk]].
        cbn [ev]. rewrite Hgm. cbn [gbind]. unfold call. rewrite Hgen, Eg. reflexivity.
      + left. destruct Hc as [it E0]. split; [right; exists e, it; apply ends_step; exact E0|congruence].
      + left. split; [left; apply ends_step; exact Hc|congruence].
  Qed.
  Lemma reduce_turn st d k r ts pos : invat st (d ++ r_rhs r) ts pos -> decides rs sr p (d ++ r_rhs r) (la_at tix w pos) (Some (Reduce k)) -> nth_error rs k = Some r -> (forall k', In k' (ps_rec st) -> k' = k) ->
    bad_end st \/ exists ts1 ts2 args gen v st' q v' i, ts = ts1 ++ ts2 /\ length ts1 = length d /\ twfs tix rs w (r_rhs r) ts2 /\ gmap (ev (pr_gens P) w) ts2 = GOk args /\
      nth_error (pr_gens P) k = Some gen /\ gen args = GOk v /\ step st = inl st' /\ invat st' (d ++ [NT (r_lhs r)]) (ts1 ++ [Node k ts2]) pos /\ ps_rec st' = [] /\
      ev (pr_gens P) w (Node k ts2) = GOk (NonTerminal v) /\
      i = first_index (map snd (rev (firstn (length (r_rhs r)) (ps_stack st)))) (length (ps_syms (ps_read tix st))) /\
      ps_stack st' = (q, ENon v' i) :: skipn (length (r_rhs r)) (ps_stack st).
  Proof. intros H1 H2 H3 H4. destruct (reduce_turn_one _ _ _ _ _ _ H1 H2 H3 H4) as [[H _]|H]; auto. Qed.

  (** the error symbol does not occur twice in a row *)
  Definition adj (u : list term) : Prop := exists i, nth_error u i = Some TErr /\ nth_error u (S i) = Some TErr.
  Lemma adj_app u1 u2 : ~ adj u1 -> ~ adj u2 -> ~ adj (u1 ++ TSym semi :: u2).
  Proof.
    intros H1 H2 (i & E1 & E2). destruct (Nat.lt_ge_cases (S i) (length u1)) as [H|H].
    - apply H1. exists i. rewrite nth_error_app1 in E1, E2 by lia. auto.
    - rewrite nth_error_app2 in E2 by auto. destruct (Nat.eq_dec (S i) (length u1)) as [E0|E0]; [rewrite E0, Nat.sub_diag in E2; discriminate|].
      rewrite nth_error_app2 in E1 by lia. replace (S i - length u1) with (S (i - length u1)) in E2 by lia. cbn [nth_error] in E2. destruct (i - length u1) as [|j]; [discriminate|]. apply H2. exists j. auto.
  Qed.
  Lemma adj_base u : ~ In TErr u -> ~ adj u.
  Proof. intros H (i & E1 & _). apply H. eapply nth_error_In; eauto. Qed.
  Lemma base_noerr : (forall Y u, der B Y u -> Y <> TM TErr -> ~ In TErr u) /\ (forall l u, ders B l u -> ~ In (TM TErr) l -> ~ In TErr u).
  Proof.
    apply der_ders_ind.
    - intros t H [E0|[]]. congruence.
    - intros r u Hr _ IH _. apply IH. apply (B_In _ Hr).
    - intros _ [].
    - intros Y l u v _ IH1 _ IH2 H Hin. apply in_app_or in Hin as [Hin|Hin]; [apply IH1 in Hin|apply IH2 in Hin]; auto; [simpl in H; intuition|intros Hl; apply H; simpl; auto].
  Qed.
  Lemma X_noerr u : der (gram s) (NT X) u -> ~ In TErr u.
  Proof. intros H. apply (proj1 base_noerr (NT X)); [|discriminate]. apply der_base; auto. apply X_base. Qed.
  Lemma R_apart : (forall Y u, der (gram s) Y u -> der (gram s) Y u /\ (Y = NT R -> ~ adj u)) /\
    (forall l u, ders (gram s) l u -> exists us, u = concat us /\ Forall2 (fun Y v => der (gram s) Y v /\ (Y = NT R -> ~ adj v)) l us).
  Proof.
    apply der_ders_ind.
    - intros t. split; [constructor|discriminate].
    - intros r u Hr Hd (us & -> & IH). split; [constructor; auto|]. intros E0. injection E0 as E0. rewrite gram_eq in Hr. apply in_app_or in Hr as [Hr|Hr]; [apply B_In in Hr; tauto|].
      destruct Hr as [<-|[<-|[<-|[<-|[]]]]]; cbn [r_rhs r1 r2 r3 r4] in IH; clear E0 Hd;
        repeat match goal with H : Forall2 _ (_ :: _) _ |- _ => inversion H; clear H; subst | H : Forall2 _ [] _ |- _ => inversion H; clear H; subst | H : _ /\ _ |- _ => destruct H end;
        repeat match goal with H : der _ (TM _) _ |- _ => inversion H; clear H; subst end; cbn [concat app]; rewrite ?app_nil_r.
      + apply adj_base. apply X_noerr. auto.
      + intros (i & _ & E2). destruct i; discriminate.
      + apply adj_app; [auto|]. apply adj_base. apply X_noerr. auto.
      + apply adj_app; [auto|]. intros (i & _ & E2). destruct i; discriminate.
    - exists []. split; auto.
    - intros Y l u v _ IH1 _ (us & -> & IH2). exists (u :: us). split; auto.
  Qed.
  Lemma list_apart : errors_apart s.
  Proof.
    intros u v H. apply (proj1 R_apart) in H as [_ H]. apply (H eq_refl). exists (length u). rewrite !nth_error_app2, Nat.sub_diag by lia. replace (S (length u) - length u) with 1 by lia. auto.
  Qed.
  Lemma all_stops st g ts pos : invat st g ts pos -> stops tix P st.
  Proof.
    apply (stops_all tix s P [] ss w Hm); auto.
    - apply (rstep_wf _ _ _ (md_fresh _ _ _ _ Hm) (cf_of s P [] ss Hm eq_refl) Hp).
    - exact list_apart.
  Qed.
  Lemma fold_upd (es : list (entry N)) h eh : Forall (fun e => idx e <> None) es -> snd (fold_left upd es (h, eh)) = eh.
  Proof. intros HF. revert h. induction HF as [|e es He _ IH]; intros h; auto. cbn [fold_left]. destruct e; cbn [upd idx] in *; try congruence; apply IH. Qed.
  Lemma fold_upd_last (es : list (entry N)) e i he : idx e = Some i -> fst (fold_left upd (es ++ [e]) he) = i.
  Proof. intros He. rewrite fold_left_app. cbn [fold_left]. destruct e; cbn in *; congruence. Qed.
  Lemma first_idx (e : entry N) i es d : idx e = Some i -> first_index (e :: es) d = i.
  Proof. destruct e; cbn; congruence. Qed.

  Section After.
    Variable gm : list sym.
    Hypothesis Hgm : bd gm.

    (** after the error symbol *)
    Lemma err_items it : valid rs sr (gm ++ [TM TErr]) it -> i_rule it = nb + (off gm + 1) /\ exists r, nth_error rs (i_rule it) = Some r /\ i_pos it = length (r_rhs r).
    Proof.
      intros Hv. apply items in Hv as [[_ [E0|E0]]|[(r & Hin & Hk & Hr & Hla & Hq & E0)|(gm2 & d0 & Hgm2 & E0 & Hd0 & _)]].
      - exfalso. destruct gm; discriminate.
      - exfalso. destruct Hgm; discriminate.
      - destruct (nth_list _ r Hr ltac:(lia) ltac:(lia)) as [[Ek ->]|[[Ek ->]|[[Ek ->]|[Ek ->]]]]; cbn [r_rhs r1 r2 r3 r4] in E0, Hq; destruct (i_pos it) as [|[|[|[|q]]]] eqn:Eq; cbn [firstn] in E0; cbn [length] in Hq; try lia; destruct Hgm; cbn [app] in E0; try discriminate.
        + split; [cbn; lia|]. exists r2. rewrite Ek. split; auto. rewrite nth_r. reflexivity.
        + split; [cbn; lia|]. exists r4. rewrite Ek. split; auto. rewrite nth_r. reflexivity.
      - exfalso. apply base_nosemi in Hd0. destruct Hgm, Hgm2; cbn [app] in E0; try discriminate; try (subst d0; apply Hd0; simpl; auto; fail); injection E0 as <-; apply Hd0; simpl; auto.
    Qed.
    Lemma err_wants Y : ~ wants rs sr (gm ++ [TM TErr]) Y.
    Proof.
      intros (k & q & b0 & r & Hv & Hr & Hq). apply err_items in Hv as (_ & r' & Hr' & Eq). cbn [i_rule i_pos] in Hr', Eq. assert (r' = r) by congruence. subst r' q.
      pose proof (proj2 (nth_error_None (r_rhs r) (length (r_rhs r))) (le_n _)). congruence.
    Qed.
    Lemma list_la k t q : valid rs sr (gm ++ [TM TErr]) (mk_item k q t) -> ends_list t.
    Proof.
      intros Hv. pose proof (proj1 (err_items _ Hv)) as Ek. cbn [i_rule] in Ek. apply items in Hv as [[E0 _]|[(r & _ & _ & _ & Hla & _)|(gm2 & d0 & _ & _ & _ & Hk & _)]]; cbn [i_rule i_la] in *; auto; exfalso; pose proof sr_eq; destruct Hgm; cbn in Ek; lia.
    Qed.
    Lemma err_decides t d0 : decides rs sr p (gm ++ [TM TErr]) t d0 -> ~ ends_list t -> d0 = None.
    Proof.
      intros Hd Ht. destruct d0 as [[q|k|]|]; auto; exfalso; cbn in Hd.
      - destruct Hd as [Hw _]. apply err_wants in Hw. auto.
      - destruct Hd as (_ & _ & _ & (r & Hr & Hv) & _). apply list_la in Hv. auto.
      - destruct Hd as (_ & _ & Hacc). apply (accepting_g _ _ _ (md_fresh _ _ _ _ Hm)) in Hacc. destruct Hgm; discriminate.
    Qed.
    Lemma list_done k t : k <> sr -> complete rs sr [NT R] k t -> False.
    Proof.
      intros Hk (r & Hr & Hv). apply items in Hv as [[E0 _]|[(r0 & Hin & _ & Hr0 & _ & _ & E0)|(gm2 & d0 & Hgm2 & E0 & Hd0 & _)]]; cbn [i_rule i_pos i_la] in *.
      - congruence.
      - assert (r0 = r) by congruence. subst r0. rewrite firstn_all in E0. destruct Hin as [<-|[<-|[<-|[<-|[]]]]]; cbn in E0; try discriminate. injection E0 as E0. destruct (base_not _ X_base) as [H0 _]. apply H0. congruence.
      - exact (not_list _ _ Hgm2 Hd0 (eq_sym E0)).
    Qed.
  End After.

  Section Segment.
    Variables (gm : list sym) (tg : list tree) (a b : nat).
    Hypothesis Hgm : bd gm.
    Hypothesis Htg : length tg = length gm.
    Hypothesis Ha : a < length w.
    Hypothesis Hab : a <= b.
    Hypothesis Hbw : b <= length w.
    Hypothesis Hno : forall i x, a <= i -> i < b -> nth_error w i = Some x -> tix x <> semi.
    Hypothesis Hend : forall x, nth_error w b = Some x -> tix x = semi.

    Definition seg (i : nat) : list T := firstn (b - i) (skipn i w).
    Definition bottom (st : pstate N T) (d : list sym) : Prop :=
      d = [] \/ exists es e, map snd (firstn (length d) (ps_stack st)) = es ++ [e] /\ idx e = Some a /\ Forall (fun e => idx e <> None) es.
    Record D (st : pstate N T) (d : list sym) (td : list tree) (pos : nat) : Prop := {
      D_inv : invat st (gm ++ d) (tg ++ td) pos;
      D_base : Forall base_sym d;
      D_lvs : flat_map leaves td = seq a (pos - a);
      D_le : a <= pos <= b;
      D_bot : bottom st d;
      D_rec : ps_rec st = [];
      D_begin : d = [] \/ exists y, nth_error w a = Some y /\ can_begin tix base X y;
      D_run : forall z, pos < b \/ fst_of z TEoi = la_at tix w b -> astar (gram s) (sx_start s) ss (gm, kinds tix (seg a) ++ z) (gm ++ d, kinds tix (seg pos) ++ z) }.

    Lemma D_len st d td pos : D st d td pos -> length td = length d.
    Proof. intros H. pose proof (inv_len _ _ _ _ (D_inv _ _ _ _ H)) as [_ L]. rewrite !app_length in L. lia. Qed.
    Lemma D_nil st d td pos : D st d td pos -> (d = [] <-> pos = a).
    Proof.
      intros H. pose proof (D_len _ _ _ _ H) as L. pose proof (D_lvs _ _ _ _ H) as Hl. pose proof (D_le _ _ _ _ H) as Hle. split.
      - intros ->. destruct td; [|discriminate]. simpl in Hl. destruct (pos - a) eqn:Ep; [lia|discriminate].
      - intros ->. rewrite Nat.sub_diag in Hl. simpl in Hl. destruct d as [|Y d]; auto. exfalso.
        assert (Hne : w <> []) by (intros E0; rewrite E0 in Ha; simpl in Ha; lia).
        pose proof (inv_twfs tix _ _ _ _ _ (md_len _ _ _ _ Hm) _ _ _ _ (or_introl Hne) (D_inv _ _ _ _ H)) as T1. apply twfs_app_inv in T1 as (b1 & b2 & E2 & T1 & T2).
        assert (E3 : tg = b1) by (eapply app_len_inj; [exact E2|]; pose proof (twfs_len _ _ _ _ _ T1); lia). rewrite E3 in E2. apply app_inv_head in E2. subst b2.
        apply (proj2 (clean_base w)) in T2; [|apply (D_base _ _ _ _ H)]. apply (proj2 T2); auto. discriminate.
    Qed.

    Lemma kinds_skip i x : nth_error w i = Some x -> kinds tix (skipn i w) = TSym (tix x) :: kinds tix (skipn (S i) w).
    Proof. intros Hx. rewrite (skipn_cons _ _ _ Hx). reflexivity. Qed.
    Lemma la_fst pos : fst_of (kinds tix (skipn pos w)) TEoi = la_at tix w pos.
    Proof.
      unfold la_at. destruct (nth_error w pos) as [x|] eqn:Ex; [rewrite (kinds_skip _ _ Ex); auto|]. apply nth_error_None in Ex. rewrite skipn_all2 by auto. reflexivity.
    Qed.

    Lemma seg_cons i x : nth_error w i = Some x -> i < b -> seg i = x :: seg (S i).
    Proof. intros Hx Hi. unfold seg. rewrite (skipn_cons _ _ _ Hx). replace (b - i) with (S (b - S i)) by lia. reflexivity. Qed.
    Lemma seg_end : seg b = [].
    Proof. unfold seg. rewrite Nat.sub_diag. reflexivity. Qed.
    Lemma seg_fst i z : i <= b -> i < b \/ fst_of z TEoi = la_at tix w b -> fst_of (kinds tix (seg i) ++ z) TEoi = la_at tix w i.
    Proof.
      intros Hi Hz. destruct (Nat.eq_dec i b) as [->|Hne].
      - rewrite seg_end. cbn [kinds map app]. destruct Hz as [Hz|Hz]; [lia|auto].
      - destruct (nth_error w i) as [x|] eqn:Ex; [|apply nth_error_None in Ex; lia]. rewrite (seg_cons _ _ Ex) by lia. unfold la_at. rewrite Ex. reflexivity.
    Qed.
    Lemma seg_la : ends_list (la_at tix w b).
    Proof. unfold la_at. destruct (nth_error w b) as [x|] eqn:Ex; [right; rewrite (Hend _ eq_refl); auto|left; auto]. Qed.
    Lemma la_seg pos : a <= pos <= b -> ends_list (la_at tix w pos) -> pos = b.
    Proof.
      intros Hp' Hla. destruct (Nat.eq_dec pos b) as [|Hne]; auto. exfalso. destruct (nth_error w pos) as [x|] eqn:Ex; [|apply nth_error_None in Ex; lia].
      unfold la_at in Hla. rewrite Ex in Hla. destruct Hla as [Hla|Hla]; [discriminate|]. injection Hla as Hla. eapply Hno; [| |exact Ex|exact Hla]; lia.
    Qed.

    (** what one turn does before the end of the statement *)
    Lemma D_shift st d td pos x q : D st d td pos -> nth_error w pos = Some x -> pos < b -> decides rs sr p (gm ++ d) (TSym (tix x)) (Some (Shift q)) ->
      exists st', step st = inl st' /\ D st' (d ++ [TM (TSym (tix x))]) (td ++ [Leaf pos]) (S pos).
    Proof.
      intros H Hx Hlt Hd. destruct (shift_turn _ _ _ _ _ _ (D_inv _ _ _ _ H) Hx Hd) as (st' & q' & Hs & Hi & Hr & Hk). exists st'. split; auto.
      pose proof (D_le _ _ _ _ H) as Hle. destruct Hd as [Hw _].
      assert (Hns : TSym (tix x) <> TSym semi) by (intros E0; injection E0 as E0; eapply Hno; [| |exact Hx|exact E0]; lia).
      destruct (wants_base gm d _ Hgm (D_base _ _ _ _ H) Hw ltac:(discriminate) Hns) as [Hbs Hf].
      constructor; auto.
      - rewrite !app_assoc. exact Hi.
      - apply Forall_app. split; [apply (D_base _ _ _ _ H)|auto].
      - rewrite flat_map_app, (D_lvs _ _ _ _ H). replace (S pos - a) with (pos - a + 1) by lia. rewrite seq_app. cbn [flat_map leaves seq app]. do 2 f_equal. lia.
      - lia.
      - right. unfold bottom. rewrite app_length, Nat.add_1_r. rewrite Hk. cbn [firstn map snd]. destruct (D_bot _ _ _ _ H) as [E0|(es & e & E1 & E2 & E3)].
        + exists [], (ETok (tix x) pos). rewrite E0. cbn. split; auto. split; auto. f_equal. apply (proj1 (D_nil _ _ _ _ H) E0).
        + exists (ETok (tix x) pos :: es), e. rewrite E1. split; auto. split; auto. constructor; auto. discriminate.
      - rewrite Hr. apply (D_rec _ _ _ _ H).
      - right. destruct (D_begin _ _ _ _ H) as [E0|E0]; auto. exists x. pose proof (proj1 (D_nil _ _ _ _ H) E0) as Ep. rewrite <- Ep. split; auto. apply firsts_begin. auto.
      - intros z _. eapply astar_trans; [apply (D_run _ _ _ _ H); auto|]. rewrite (seg_cons _ _ Hx Hlt), app_assoc. cbn [kinds map app]. eapply as_step; [|apply as_refl]. constructor. exact Hw.
    Qed.
    Lemma D_reduce_one st d td pos k : D st d td pos -> k < nb -> decides rs sr p (gm ++ d) (la_at tix w pos) (Some (Reduce k)) ->
      (bad_end st /\ forall st', step st <> inl st') \/ exists st' r d1 td', step st = inl st' /\ nth_error rs k = Some r /\ d = d1 ++ r_rhs r /\ D st' (d1 ++ [NT (r_lhs r)]) td' pos.
    Proof.
      intros H Hlt Hd. pose proof Hd as (_ & _ & Hk & Hc & _).
      destruct (complete_cases gm d k _ Hgm (D_base _ _ _ _ H) Hk Hc) as [(E0 & _)|(Hkb & r & d1 & Hr & E0 & Hb1)]; [lia|].
      pose proof (D_inv _ _ _ _ H) as Hinv. rewrite E0, app_assoc in Hinv, Hd.
      destruct (reduce_turn_one _ _ _ _ _ _ Hinv Hd Hr ltac:(rewrite (D_rec _ _ _ _ H); intros ? [])) as [Hbad|(ts1 & ts2 & args & gen & v & st' & q & v' & i & Ets & Hl & Htw & _ & _ & _ & Hs & Hi & Hrec & _ & Ei & Hk')]; [left; auto|right].
      assert (Hts : exists td1, ts1 = tg ++ td1 /\ td = td1 ++ ts2).
      { assert (Etg : tg = firstn (length tg) ts1).
        { assert (tg ++ td = firstn (length tg) ts1 ++ (skipn (length tg) ts1 ++ ts2)) as E1 by (rewrite app_assoc, firstn_skipn; auto).
          eapply app_len_inj; [exact E1|]. rewrite firstn_length. rewrite app_length in Hl. lia. }
        exists (skipn (length tg) ts1). assert (E1 : ts1 = tg ++ skipn (length tg) ts1) by (rewrite Etg at 1; symmetry; apply firstn_skipn). split; auto.
        rewrite E1, <- app_assoc in Ets. apply app_inv_head in Ets. auto. }
      destruct Hts as (td1 & E1 & E2). exists st', r, d1, (td1 ++ [Node k ts2]). split; auto. split; auto. split; auto.
      assert (Hrne : r_rhs r <> []) by (apply (rule_base _ _ Hkb) in Hr; apply B_In in Hr; tauto).
      constructor; auto.
      - rewrite !app_assoc, <- E1. exact Hi.
      - apply Forall_app. split; auto. constructor; auto. destruct (complete_split rs sr _ k _ (ex_intro _ _ nth_sr) Hc Hk) as (r' & dd & Hr' & Eg & (k2 & q2 & b2 & r2' & Hv2 & Hr2 & Hq2) & _).
        assert (r' = r) by congruence. subst r'. rewrite E0, app_assoc in Eg. apply app_inv_tail in Eg. subst dd.
        apply items in Hv2 as [[Hk2 _]|[(r0 & Hin & Hk2 & Hr0 & _)|(gm2 & d0 & _ & _ & _ & Hk2 & _)]]; cbn [i_rule i_pos i_la] in *.
        + exfalso. subst k2. rewrite nth_sr in Hr2. injection Hr2 as <-. apply nth_error_In in Hq2. destruct Hq2 as [Hq2|[]]. injection Hq2 as Hq2. apply (rule_base _ _ Hkb) in Hr. apply B_In in Hr. cbn in Hq2. destruct Hr as [Hr _]. congruence.
        + assert (r0 = r2') by congruence. subst r0. apply nth_error_In in Hq2. apply (rule_base _ _ Hkb) in Hr. apply B_In in Hr as [Hr _].
          destruct Hin as [<-|[<-|[<-|[<-|[]]]]]; cbn in Hq2; repeat (destruct Hq2 as [Hq2|Hq2]); try discriminate; try contradiction; injection Hq2 as Hq2; first [rewrite <- Hq2; apply X_base|exfalso; congruence].
        + right. exists r2'. split; [eapply rule_base; eauto|eapply nth_error_In; eauto].
      - rewrite flat_map_app. cbn [flat_map leaves]. rewrite app_nil_r, <- flat_map_app, <- E2. apply (D_lvs _ _ _ _ H).
      - apply (D_le _ _ _ _ H).
      - right. unfold bottom. rewrite app_length, Nat.add_1_r, Hk'. cbn [firstn map snd]. destruct (D_bot _ _ _ _ H) as [En|(es & e & F1 & F2 & F3)].
        + exfalso. rewrite En in E0. destruct d1; [destruct (r_rhs r); [congruence|discriminate]|discriminate].
        + rewrite E0, app_length, Nat.add_comm, firstn_plus, map_app in F1.
          destruct d1 as [|Y d1].
          * cbn [length firstn map] in *. rewrite app_nil_r in F1. exists [], (ENon v' i). split; auto. split; [|constructor]. cbn. f_equal. rewrite Ei, map_rev, F1, rev_app_distr. cbn [rev app]. apply first_idx. auto.
          * assert (Hsk : exists es2, map snd (firstn (length (Y :: d1)) (skipn (length (r_rhs r)) (ps_stack st))) = es2 ++ [e] /\ Forall (fun e => idx e <> None) es2).
            { remember (map snd (firstn (length (Y :: d1)) (skipn (length (r_rhs r)) (ps_stack st)))) as l eqn:El.
              assert (Hll : l <> []).
              { rewrite El. intros E3. apply (f_equal (@length _)) in E3. rewrite map_length, firstn_length, skipn_length in E3. pose proof (inv_len _ _ _ _ (D_inv _ _ _ _ H)) as [L _]. rewrite E0, !app_length in L. cbn [length] in E3, L. lia. }
              destruct l as [|e0 l _] using rev_ind; [congruence|]. rewrite app_assoc in F1. apply app_inj_tail in F1 as [F1 ->]. exists l. split; auto. rewrite <- F1 in F3. apply Forall_app in F3. tauto. }
            destruct Hsk as (es2 & G1 & G2). exists (ENon v' i :: es2), e. rewrite G1. split; auto. split; auto. constructor; auto. discriminate.
      - destruct (D_begin _ _ _ _ H) as [En|Hbg]; auto. exfalso. rewrite En in E0. destruct d1; [destruct (r_rhs r); [congruence|discriminate]|discriminate].
      - intros z Hz. eapply astar_trans; [apply (D_run _ _ _ _ H); auto|]. rewrite E0, app_assoc, app_assoc. eapply as_step; [|apply as_refl]. eapply a_red; eauto. rewrite seg_fst; [|apply (D_le _ _ _ _ H)|auto]. rewrite <- app_assoc, <- E0. exact Hc.
    Qed.
    Lemma D_reduce st d td pos k : D st d td pos -> k < nb -> decides rs sr p (gm ++ d) (la_at tix w pos) (Some (Reduce k)) ->
      bad_end st \/ exists st' d' td', step st = inl st' /\ D st' d' td' pos.
    Proof. intros H1 H2 H3. destruct (D_reduce_one _ _ _ _ _ H1 H2 H3) as [[H _]|(st' & r & d1 & td' & H4 & _ & _ & H5)]; [auto|right; eauto]. Qed.

    Lemma D_phase : forall m st d td pos, D st d td pos -> loop step m st <> OutOfFuel ->
      (exists st' t, reaches step st st' /\ D st' [NT X] [t] b) \/
      (exists st' d' td' pos', reaches step st st' /\ D st' d' td' pos' /\ decides rs sr p (gm ++ d') (la_at tix w pos') None) \/
      bad_end st.
    Proof.
      induction m as [|m IH]; intros st d td pos H Hl; [simpl in Hl; congruence|].
      destruct (cases tix s P [] ss w Hm _ _ _ _ (D_inv _ _ _ _ H)) as (d0 & Hd & _). fold rs sr p in Hd. pose proof (D_le _ _ _ _ H) as Hle.
      assert (Hnext : forall st' d' td' pos', step st = inl st' -> D st' d' td' pos' ->
        (exists st' t, reaches step st st' /\ D st' [NT X] [t] b) \/
        (exists st' d' td' pos', reaches step st st' /\ D st' d' td' pos' /\ decides rs sr p (gm ++ d') (la_at tix w pos') None) \/ bad_end st).
      { intros st' d' td' pos' Hs HD. cbn [loop] in Hl. rewrite Hs in Hl. pose proof (reaches_step _ _ _ Hs) as Hr.
        destruct (IH _ _ _ _ HD Hl) as [(s1 & t1 & R1 & R2)|[(s1 & d1 & td1 & p1 & R1 & R2)|R1]].
        - left. exists s1, t1. split; auto. eapply reaches_trans; eauto.
        - right. left. exists s1, d1, td1, p1. split; auto. eapply reaches_trans; eauto.
        - right. right. eapply bad_reaches; eauto. }
      assert (Hdone : d = [NT X] -> pos = b -> exists st' t, reaches step st st' /\ D st' [NT X] [t] b).
      { intros Ed ->. pose proof (D_len _ _ _ _ H) as L. rewrite Ed in L. destruct td as [|t [|t' td]]; try discriminate. rewrite Ed in H. exists st, t. split; [apply reaches_refl|]. auto. }
      destruct d0 as [d0|]; [|right; left; exists st, d, td, pos; split; [apply reaches_refl|auto]].
      destruct d0 as [q|k|].
      - destruct (nth_error w pos) as [x|] eqn:Ex.
        + assert (Hla : la_at tix w pos = TSym (tix x)) by (unfold la_at; rewrite Ex; reflexivity). rewrite Hla in Hd. destruct (Nat.eq_dec pos b) as [Eb|Hne].
          * exfalso. rewrite Eb in Ex. pose proof (Hend _ Ex) as Hx. destruct Hd as [Hw _]. rewrite Hx in Hw. exact (wants_semi _ _ Hgm (D_base _ _ _ _ H) Hw).
          * destruct (D_shift _ _ _ _ _ _ H Ex ltac:(lia) Hd) as (st' & Hs & HD). eapply Hnext; eauto.
        + exfalso. assert (Hla : la_at tix w pos = TEoi) by (unfold la_at; rewrite Ex; reflexivity). rewrite Hla in Hd.
          destruct Hd as [Hw _]. apply (wants_base _ _ _ Hgm (D_base _ _ _ _ H)) in Hw as [Hw _]; try discriminate. apply base_not in Hw. tauto.
      - pose proof Hd as (_ & _ & Hk & Hc & _). destruct (complete_cases gm d k _ Hgm (D_base _ _ _ _ H) Hk Hc) as [(_ & Ed & Hla)|(Hkb & _)].
        + left. apply Hdone; auto. apply la_seg; auto.
        + destruct (D_reduce _ _ _ _ _ H Hkb Hd) as [Hb'|(st' & d' & td' & Hs & HD)]; [auto|]. eapply Hnext; eauto.
      - exfalso. destruct Hd as (_ & _ & Hacc). exact (no_accept gm d Hgm (D_base _ _ _ _ H) Hacc).
    Qed.

    Lemma astar_len c c' : astar (gram s) (sx_start s) ss c c' -> length (snd c') <= length (snd c).
    Proof. induction 1 as [|c c1 c2 Hs _ IH]; auto. destruct Hs; cbn [snd length] in *; lia. Qed.
    Lemma astar_cases c c' : astar (gram s) (sx_start s) ss c c' -> c = c' \/ exists c1, astep (gram s) (sx_start s) ss c c1 /\ astar (gram s) (sx_start s) ss c1 c'.
    Proof. intros []; eauto. Qed.
    (** an error before the end of the item shows that no item begins like this *)
    Lemma stuck_begins st d td pos : D st d td pos -> decides rs sr p (gm ++ d) (la_at tix w pos) None -> pos < b -> ~ begins tix base X (seg a).
    Proof.
      intros H Hd Hlt [z Hz]. pose proof (stmt_star gm _ [] Hgm Hz (or_introl eq_refl)) as Hrun. rewrite app_nil_r in Hrun.
      pose proof (D_run _ _ _ _ H z (or_introl Hlt)) as Hrun2. pose proof (D_le _ _ _ _ H) as Hle.
      assert (Hlen : kinds tix (seg pos) ++ z <> []).
      { destruct (nth_error w pos) as [x|] eqn:Ex; [|apply nth_error_None in Ex; lia]. rewrite (seg_cons _ _ Ex Hlt). discriminate. }
      destruct (astar_det _ _ _ (cf_of s P [] ss Hm eq_refl) _ _ _ Hrun Hrun2) as [C|C].
      - apply astar_len in C. cbn [snd length] in C. apply Hlen. destruct (kinds tix (seg pos) ++ z); [auto|simpl in C; lia].
      - apply astar_cases in C as [C|(c1 & C1 & _)].
        + injection C as _ C. auto.
        + eapply (stuck_step (gram s) (sx_start s) ss P (gm ++ d)); [|exact C1]. rewrite (seg_fst pos z); [exact Hd|lia|auto].
    Qed.
    (** an error at its end shows that it is not an item *)
    Lemma stuck_stmt st d td : D st d td b -> decides rs sr p (gm ++ d) (la_at tix w b) None -> ~ is_stmt tix base X (seg a).
    Proof.
      intros H Hd Hst.
      assert (Hz : exists z, fst_of z TEoi = la_at tix w b) by (unfold la_at; destruct (nth_error w b) as [x|]; [exists [TSym (tix x)]|exists []]; reflexivity). destruct Hz as [z Hz].
      assert (Hla : ends_list (fst_of z TEoi)) by (rewrite Hz; apply seg_la).
      pose proof (D_run _ _ _ _ H z (or_intror Hz)) as Hrun2. rewrite seg_end in Hrun2. cbn [kinds map app] in Hrun2.
      assert (Hrun : astar (gram s) (sx_start s) ss (gm, kinds tix (seg a) ++ z) ([NT R], z)).
      { eapply astar_trans; [exact (stmt_star gm _ z Hgm Hst Hla)|]. eapply as_step; [|apply as_refl].
        apply (a_red (gram s) (sx_start s) ss [] (nb + (off gm + 0)) (mk_rule R (gm ++ [NT X])) z).
        - exact (rule_at gm (NT X) Hgm (or_introl eq_refl)).
        - change (nb + (off gm + 0) <> sr). rewrite sr_eq. assert (off gm <= 2) by (unfold off; destruct gm; lia). lia.
        - exact (bd_complete gm (NT X) _ Hgm (or_introl eq_refl) Hla). }
      assert (Hne : gm ++ d <> [NT R]) by (apply not_list; auto; apply (D_base _ _ _ _ H)).
      destruct (astar_det _ _ _ (cf_of s P [] ss Hm eq_refl) _ _ _ Hrun Hrun2) as [C|C]; apply astar_cases in C as [C|(c1 & C1 & C2)]; try congruence.
      - remember ([NT R], z) as c0 eqn:Ec0. destruct C1 as [g t v Hw|d1 k r v Hr Hk Hc]; injection Ec0 as E1 Ev.
        + apply astar_len in C2. cbn [snd] in C2. rewrite <- Ev in C2. simpl in C2. lia.
        + rewrite E1 in Hc. eapply list_done; eauto.
      - eapply (stuck_step (gram s) (sx_start s) ss P (gm ++ d)); [|exact C1]. rewrite Hz. exact Hd.
    Qed.
    Lemma stuck_not st d td pos : D st d td pos -> decides rs sr p (gm ++ d) (la_at tix w pos) None -> ~ is_stmt tix base X (seg a).
    Proof.
      intros H Hd. pose proof (D_le _ _ _ _ H) as Hle. destruct (Nat.eq_dec pos b) as [->|Hne]; [eapply stuck_stmt; eauto|].
      intros Hst. apply (stuck_begins _ _ _ _ H Hd ltac:(lia)). exists []. rewrite app_nil_r. exact Hst.
    Qed.
    (** what has been read up to the end begins an item *)
    Lemma read_begins st d td : D st d td b -> d <> [] -> begins tix base X (seg a).
    Proof.
      intros H Hne. pose proof (D_inv _ _ _ _ H) as Hinv. apply (viable gm d); auto.
      - apply (D_base _ _ _ _ H).
      - apply (can_state _ _ _ Hcan). eexists. exact (inv_state _ _ _ _ _ _ _ _ _ _ Hinv).
      - assert (Hw0 : w <> []) by (intros E0; rewrite E0 in Ha; simpl in Ha; lia).
        pose proof (inv_twfs tix _ _ _ _ _ (md_len _ _ _ _ Hm) _ _ _ _ (or_introl Hw0) Hinv) as T1. apply twfs_app_inv in T1 as (b1 & b2 & E2 & T1 & T2).
        assert (E3 : tg = b1) by (eapply app_len_inj; [exact E2|]; pose proof (twfs_len _ _ _ _ _ T1); lia). rewrite E3 in E2. apply app_inv_head in E2. subst b2.
        eapply trees_word; eauto; [apply (D_base _ _ _ _ H)|apply (D_lvs _ _ _ _ H)|lia].
    Qed.

    Lemma top_err st g ts lo hi pos : invat st (g ++ [TM TErr]) (ts ++ [Bad lo hi]) pos -> exists q st1, ps_stack st = (q, EErr lo hi) :: st1.
    Proof.
      intros Hinv. pose proof (inv_stk _ _ _ _ _ _ _ _ _ _ Hinv) as Hk. inversion Hk as [E0|st1 g0 ts0 s0 e Y0 t0 Hk0 Hs0 He0 _ E1 E2 E3]; [destruct g; discriminate|].
      apply app_inj_tail in E2 as [_ E2]. apply app_inj_tail in E3 as [_ E3]. rewrite E2, E3 in He0.
      destruct e as [v i|k i|lo' hi'|]; cbn [ent] in He0; [destruct He0 as ([A0 He0] & _); discriminate|destruct He0 as [He0 _]; discriminate| |destruct He0].
      destruct He0 as (_ & He0 & _). injection He0 as <- <-. eauto.
    Qed.
    Lemma K_skip : forall n st lo hi pos, b - pos = n -> invat st (gm ++ [TM TErr]) (tg ++ [Bad lo hi]) pos -> rec_ok gm st -> lo <= pos -> a <= pos <= b ->
      exists st', reaches step st st' /\ invat st' (gm ++ [TM TErr]) (tg ++ [Bad lo (if pos =? b then hi else b - 1)]) b /\ rec_ok gm st'.
    Proof.
      induction n as [|n IH]; intros st lo hi pos En Hinv Hrec Hlo Hpos.
      - assert (pos = b) by lia. subst pos. rewrite Nat.eqb_refl. exists st. split; [apply reaches_refl|auto].
      - assert (Hlt : pos < length w) by lia. destruct (nth_error w pos) as [x|] eqn:Ex; [|apply nth_error_None in Ex; lia].
        assert (Hla : la_at tix w pos = TSym (tix x)) by (unfold la_at; rewrite Ex; reflexivity).
        assert (Hns : TSym (tix x) <> TSym semi) by (intros E0; injection E0 as E0; eapply Hno; [| |exact Ex|exact E0]; lia).
        destruct (cases tix s P [] ss w Hm _ _ _ _ Hinv) as (d0 & Hd & _). fold rs sr p in Hd. pose proof Hd as Hd'. rewrite Hla in Hd'. apply (err_decides gm Hgm) in Hd'; [|intros [E0|E0]; [discriminate|auto]]. subst d0.
        assert (Hw : forall d1 d2 : list sym, [TM TErr] = d1 ++ d2 -> d1 <> [] -> ~ wants rs sr (gm ++ d1) (TM TErr)).
        { intros d1 d2 E0 Hne Hw. destruct d1 as [|Y [|Y' d1]]; [congruence| |destruct d1; discriminate]. injection E0 as <- _. apply (err_wants gm Hgm) in Hw. auto. }
        destruct (error_turn st gm [TM TErr] tg [Bad lo hi] pos Hinv Hgm Htg Hlt Hd Hw Hrec) as (st' & q & h & eh & Ef & Hs & Hi & Hr' & _).
        destruct (top_err _ _ _ _ _ _ Hinv) as (q0 & st1 & Hk). rewrite Hk in Ef. cbn [firstn length map snd fold_left upd fst] in Ef. injection Ef as <- <-.
        rewrite Nat.min_r in Hi by auto. cbn [Nat.min] in Hi. rewrite Nat.min_id in Hi.
        destruct (IH st' lo pos (S pos) ltac:(lia) Hi Hr' ltac:(lia) ltac:(lia)) as (st2 & R1 & R2 & R3). exists st2. split; [eapply reaches_trans; [apply reaches_step; eauto|auto]|]. split; auto.
        replace (pos =? b) with false by (symmetry; apply Nat.eqb_neq; lia). destruct (Nat.eqb_spec (S pos) b) as [E4|E4]; auto. replace (b - 1) with pos by lia. auto.
    Qed.

    Lemma slice_two i (x : T) y : nth_error w i = Some y -> nth_error w (S i) = Some x -> firstn 2 (skipn i w) = [y; x].
    Proof. intros H1 H2. rewrite (skipn_cons _ _ _ H1), (skipn_cons _ _ _ H2). reflexivity. Qed.
    Lemma seg_error st d td pos : D st d td pos -> decides rs sr p (gm ++ d) (la_at tix w pos) None -> pos < length w ->
      exists st' hi, reaches step st st' /\ invat st' (gm ++ [TM TErr]) (tg ++ [Bad a hi]) b /\ rec_ok gm st' /\
        (forall x, nth_error w b = Some x -> reported tix base X (firstn (b - a) (skipn a w)) x (firstn (S hi - a) (skipn a w))) /\
        (nth_error w b = None -> firstn (S hi - a) (skipn a w) = seg a).
    Proof.
      intros H Hd Hlt. pose proof (D_le _ _ _ _ H) as Hle.
      assert (Hw : forall d1 d2 : list sym, d = d1 ++ d2 -> d1 <> [] -> ~ wants rs sr (gm ++ d1) (TM TErr)).
      { intros d1 d2 E0 Hne (k & q & b0 & r & Hv & Hr & Hq). assert (Hb1 : Forall base_sym d1) by (pose proof (D_base _ _ _ _ H) as Hb1; rewrite E0 in Hb1; apply Forall_app in Hb1; tauto).
        destruct (wants_err gm d1 _ _ _ _ Hgm Hb1 Hv Hr Hq). congruence. }
      destruct (error_turn st gm d tg td pos (D_inv _ _ _ _ H) Hgm Htg Hlt Hd Hw (rec_nil _ _ (D_rec _ _ _ _ H))) as (st' & q & h & eh & Ef & Hs & Hi & Hr' & _).
      destruct (nth_error w a) as [y|] eqn:Ey; [|apply nth_error_None in Ey; lia].
      assert (Hu2 : a + 2 <= b -> forall x, reported tix base X (firstn (b - a) (skipn a w)) x (firstn (b - a) (skipn a w))).
      { intros H2 x. remember (firstn (b - a) (skipn a w)) as u eqn:Eu. assert (Lu : length u = b - a) by (rewrite Eu, firstn_length, skipn_length; lia).
        destruct u as [|y0 [|z0 u]]; cbn [length] in Lu; try lia. apply reported_all. }
      destruct d as [|Y d].
      - assert (Epos : pos = a) by (apply (D_nil _ _ _ _ H); auto). subst pos. cbn [firstn length map fold_left] in Ef. injection Ef as <- <-. rewrite Nat.min_id in Hi.
        destruct (K_skip _ st' a a a eq_refl Hi Hr' ltac:(lia) ltac:(lia)) as (st2 & R1 & R2 & R3). exists st2. eexists. split; [eapply reaches_trans; [apply reaches_step; eauto|exact R1]|]. split; [exact R2|]. split; auto. split.
        2: { intros Hb'. apply nth_error_None in Hb'. destruct (Nat.eqb_spec a b); [lia|]. unfold seg. f_equal. lia. }
        intros x Hx. destruct (Nat.eqb_spec a b) as [E0|E0].
        + rewrite <- E0, Nat.sub_diag. replace (S a - a) with 1 by lia. rewrite (skipn_cons _ _ _ Ey). cbn [firstn]. rewrite <- E0 in Hx. assert (y = x) by congruence. subst y. constructor.
        + replace (S (b - 1) - a) with (b - a) by lia. destruct (Nat.eq_dec b (S a)) as [E1|E1]; [|apply Hu2; lia].
          rewrite E1. replace (S a - a) with 1 by lia. rewrite (skipn_cons _ _ _ Ey). cbn [firstn]. apply reported_one.
          intros Hbg. apply (begin_decides gm y Hgm Hbg). rewrite app_nil_r in Hd. unfold la_at in Hd. rewrite Ey in Hd. exact Hd.
      - destruct (D_bot _ _ _ _ H) as [E0|(es & e & E1 & E2 & E3)]; [discriminate|]. rewrite E1 in Ef.
        assert (Eh : h = a) by (pose proof (fold_upd_last es e a (pos, pos) E2) as F; rewrite Ef in F; auto).
        assert (Eeh : eh = pos) by (assert (HF : Forall (fun e => idx e <> None) (es ++ [e])) by (apply Forall_app; split; auto; constructor; auto; congruence); pose proof (fold_upd _ pos pos HF) as F; rewrite Ef in F; auto).
        rewrite Eh, Eeh in Hi. rewrite !(Nat.min_l a pos) in Hi by lia.
        assert (Hpa : pos <> a) by (intros E0; apply (D_nil _ _ _ _ H) in E0; discriminate).
        destruct (K_skip _ st' a pos (S a) eq_refl Hi Hr' ltac:(lia) ltac:(lia)) as (st2 & R1 & R2 & R3). exists st2. eexists. split; [eapply reaches_trans; [apply reaches_step; eauto|exact R1]|]. split; [exact R2|]. split; auto. split.
        2: { intros Hb'. apply nth_error_None in Hb'. destruct (Nat.eqb_spec (S a) b); [lia|]. unfold seg. f_equal. lia. }
        intros x Hx. destruct (Nat.eqb_spec (S a) b) as [E0|E0].
        + assert (Epos : pos = S a) by lia. rewrite Epos, <- E0. replace (S a - a) with 1 by lia. replace (S (S a) - a) with 2 by lia. rewrite <- E0 in Hx.
          rewrite (slice_two a x y Ey Hx), (skipn_cons _ _ _ Ey). cbn [firstn]. apply reported_end.
          destruct (D_begin _ _ _ _ H) as [Ed|(y' & Ey' & Hbg)]; [discriminate|]. assert (y' = y) by congruence. subst y'. auto.
        + replace (S (b - 1) - a) with (b - a) by lia. apply Hu2. lia.
    Qed.
  End Segment.

  (** ** The whole list *)
  Lemma find_end : forall n a, length w - a = n -> a <= length w ->
    exists b, a <= b /\ b <= length w /\ (forall i x, a <= i -> i < b -> nth_error w i = Some x -> tix x <> semi) /\ (forall x, nth_error w b = Some x -> tix x = semi).
  Proof.
    induction n as [|n IH]; intros a En Hle.
    - exists a. split; auto. split; auto. split; [intros; lia|]. intros x Hx. exfalso. assert (a < length w) by (apply nth_error_Some; congruence). lia.
    - destruct (nth_error w a) as [y|] eqn:Ey; [|apply nth_error_None in Ey; lia]. destruct (Nat.eq_dec (tix y) semi) as [Hy|Hy].
      + exists a. split; auto. split; auto. split; [intros; lia|]. intros x Hx. congruence.
      + destruct (IH (S a) ltac:(lia) ltac:(lia)) as (b & H1 & H2 & H3 & H4). exists b. split; [lia|]. split; auto. split; auto.
        intros i x Hi1 Hi2 Hx. destruct (Nat.eq_dec i a) as [->|Hi]; [congruence|]. eapply H3; [| |exact Hx]; lia.
  Qed.
  Lemma In_skipn i (x : T) : In x (skipn i w) -> exists j, i <= j /\ nth_error w j = Some x.
  Proof. intros Hin. apply In_nth_error in Hin as [n Hn]. rewrite nth_skip in Hn. exists (i + n). split; [lia|auto]. Qed.
  Lemma gens_nth j : nth_error (pr_gens P) (nb + j) = nth_error [g1; g2; g3; g4; fun _ => GPanic] j.
  Proof.
    rewrite (md_gens _ _ _ _ Hm). unfold gens, s, left_rec. cbn [sx_rules]. rewrite map_app, <- app_assoc, nth_error_app2; rewrite map_length; fold nb; [|lia]. f_equal. lia.
  Qed.
  Lemma complete_decides g k t d0 : complete rs sr g k t -> k <> sr -> ~ accepting rs sr g -> decides rs sr p g t d0 -> d0 = Some (Reduce k).
  Proof.
    intros Hc Hk Hacc Hd. destruct (cf_of s P [] ss Hm eq_refl _ _ _ Hk Hc) as [Hw Hu]. destruct d0 as [[q|k'|]|]; cbn in Hd.
    - tauto.
    - destruct Hd as (_ & _ & H1 & H2 & _). rewrite (Hu k' H1 H2). auto.
    - tauto.
    - exfalso. destruct Hd as (_ & _ & H1). exact (H1 _ Hk Hc).
  Qed.
  Lemma end_turn st g ts b x : invat st g ts b -> wants rs sr g Semi -> nth_error w b = Some x -> tix x = semi ->
    exists st', step st = inl st' /\ invat st' (g ++ [Semi]) (ts ++ [Leaf b]) (S b) /\ ps_rec st' = ps_rec st.
  Proof.
    intros Hinv Hw Hx Hs. destruct (cases tix s P [] ss w Hm _ _ _ _ Hinv) as (d0 & Hd & _). fold rs sr p in Hd. unfold la_at in Hd. rewrite Hx in Hd.
    destruct d0 as [[q|k|]|]; try (exfalso; destruct Hd as [Hd _]; rewrite Hs in Hd; contradiction).
    destruct (shift_turn _ _ _ _ _ _ Hinv Hx Hd) as (st' & q' & H1 & H2 & H3 & _). rewrite Hs in H2. exists st'. auto.
  Qed.
  Lemma not_found st g ts : invat st g ts (length w) -> decides rs sr p g TEoi None -> ~ wants rs sr g (TM TErr) -> exists it, ends step st (Ok (RNotFound, it)).
  Proof.
    intros Hinv Hd Hw. assert (Hla : la_at tix w (length w) = TEoi) by (unfold la_at; replace (nth_error w (length w)) with (@None T); auto; symmetry; apply nth_error_None; auto).
    destruct (cases tix s P [] ss w Hm _ _ _ _ Hinv) as (d0 & Hd0 & Hc). rewrite Hla in Hd0. assert (d0 = None) by (eapply decides_det; eauto). subst d0.
    destruct Hc as (_ & [(it & E0 & _)|(s' & E0 & _ & g' & ts' & ts2 & lo & hi & pos' & _ & Hw' & _ & _ & He & _)]).
    - exists it. apply ends_step. auto.
    - exfalso. destruct (He eq_refl) as (_ & _ & -> & _). contradiction.
  Qed.
  Lemma der_nonempty Y u : der B Y u -> u <> [].
  Proof.
    intros H. apply (proj1 (der_ders_ind B (fun Y u => u <> []) (fun l u => l <> [] -> u <> []) ltac:(discriminate) ltac:(intros r v Hr _ IH; apply IH; apply (B_In _ Hr)) ltac:(congruence)
      ltac:(intros Z l v v' _ IH1 _ _ _ E0; apply app_eq_nil in E0 as [E0 _]; auto)) _ _ H).
  Qed.
  Lemma init_inv : invat (ps_init P w) [] [] 0.
  Proof. constructor; simpl; auto; try constructor; auto. Qed.
  Lemma accept_turn st t v : invat st [NT R] [t] (length w) -> ev (pr_gens P) w t = GOk (NonTerminal v) -> ends step st (Ok (ROk v, [])).
  Proof.
    intros Hinv Hev. assert (Hla : la_at tix w (length w) = TEoi) by (unfold la_at; replace (nth_error w (length w)) with (@None T); auto; symmetry; apply nth_error_None; auto).
    assert (Hacc : accepting rs sr [NT R]) by (change R with (sx_start s); apply accepting_start).
    destruct (cases tix s P [] ss w Hm _ _ _ _ Hinv) as (d0 & Hd & Hc). fold rs sr p in Hd. rewrite Hla in Hd. destruct d0 as [[q|k|]|]; cbn in Hd.
    - exfalso. destruct Hd as [(k & q0 & b0 & r & _ & Hr & Hq) _]. apply nth_error_In in Hr, Hq. unfold rs, augment in Hr. apply in_app_or in Hr as [Hr|[<-|[]]].
      + eapply (md_eoi _ _ _ _ Hm); eauto.
      + destruct Hq as [Hq|[]]; discriminate.
    - tauto.
    - destruct Hc as (_ & _ & _ & t0 & v0 & Et & Ev & Hs). injection Et as <-. assert (v0 = v) by congruence. subst v0. apply ends_step. auto.
    - tauto.
  Qed.
  Lemma la_end : la_at tix w (length w) = TEoi.
  Proof. unfold la_at. rewrite (proj2 (nth_error_None w (length w))); auto. Qed.
  Lemma wants_sep : wants rs sr [NT R] Semi.
  Proof.
    assert (Hr : nth_error rs (nb + 2) = Some r3) by (rewrite nth_r; reflexivity). exists (nb + 2), 1, TEoi, r3. split; [|auto].
    assert (Hv : valid rs sr [] (mk_item (nb + 2) 0 TEoi)) by (eapply valid_closure; [constructor|exact nth_sr|reflexivity|exact Hr|reflexivity|exists []; constructor]).
    exact (valid_goto _ _ _ _ _ _ _ _ Hv Hr eq_refl).
  Qed.
  (** where an item is missing at the end of the input *)
  Lemma missing_turn st gm tg : bd gm -> length tg = length gm -> invat st gm tg (length w) -> ps_rec st = [] ->
    exists st', step st = inl st' /\ rec_ok gm st' /\ invat st' (gm ++ [TM TErr]) (tg ++ [Bad 0 0]) (length w).
  Proof.
    intros Hg Hl Hinv Hrec. destruct (cases tix s P [] ss w Hm _ _ _ _ Hinv) as (d0 & Hd & Hc). fold rs sr p in Hd. rewrite la_end in Hd. pose proof Hd as Hd'. apply (end_decides _ _ _ Hg (or_introl eq_refl)) in Hd'. subst d0.
    destruct (read_inv tix _ _ _ _ _ (md_len _ _ _ _ Hm) _ _ _ _ Hinv) as [_ (t0 & i0 & buf0 & Eb0 & Hcase)].
    destruct Hcase as [(x0 & Hx0 & _)|(Et & Ei & _ & Ebuf & _)]; [exfalso; assert (length w < length w) by (apply nth_error_Some; congruence); lia|]. subst t0 i0.
    pose proof (inv_state _ _ _ _ _ _ _ _ _ _ Hinv) as Hst. fold p in Hst.
    assert (Hact : act p (ps_state st) TEoi = Ok None).
    { destruct (act_state (gram s) (sx_start s) ss P Hcan _ _ TEoi Hst) as (d1 & Ha1 & Hdd). fold p in Ha1. rewrite Ha1. f_equal. eapply decides_det; eauto. }
    destruct (recover_here true gm (ps_state st) (ps_rec st) false 0 0 (ps_stack st) Hg (or_intror eq_refl) Hst ltac:(rewrite Hrec; intros ? [])) as (rc & Hrc & Erec).
    destruct (act_state (gram s) (sx_start s) ss P Hcan _ _ TErr Hst) as (dE & HaE & HdE). fold p in HaE. pose proof (bd_wants gm Hg) as HwE.
    destruct dE as [[q'|k'|]|]; try (destruct HdE as [HdE _]; contradiction).
    assert (Hstep : exists st', step st = inl st' /\ ps_rec st' = rc).
    { eexists. split.
      - unfold parse_step. cbv zeta. rewrite Eb0. fold p. rewrite read_state, Hact, read_rec, read_stack, Erec. cbn [put_back Nat.sub seq mapM]. rewrite HaE. reflexivity.
      - reflexivity. }
    destruct Hstep as (st' & Hs & Hr'). exists st'. split; auto. split; [intros k Hk; rewrite Hr' in Hk; auto|].
    destruct Hc as (_ & [(it & E0 & _)|(s' & E0 & _ & g' & ts' & ts2 & lo & hi & pos' & Ets & _ & _ & _ & He & Hi)]); [congruence|]. rewrite E0 in Hs. injection Hs as ->.
    destruct (He eq_refl) as (-> & -> & -> & ->). pose proof (inv_len _ _ _ _ Hi) as [_ L]. rewrite !app_length in L. cbn [length] in L.
    assert (ts' = tg) by (symmetry; eapply app_len_inj; [rewrite app_nil_r; exact Ets|lia]). subst ts'. exact Hi.
  Qed.

  (** the tree of the list so far *)
  Definition pre (gm : list sym) (tg : list tree) (a : nat) : Prop :=
    (gm = [] /\ tg = [] /\ a = 0) \/
    exists tL x v, gm = [NT R; Semi] /\ tg = [tL; Leaf (a - 1)] /\ 1 <= a /\ nth_error w (a - 1) = Some x /\ tix x = semi /\ ev (pr_gens P) w tL = GOk (NonTerminal v) /\ left_value tix base X semi g1 g2 g3 g4 w (firstn (a - 1) w) (Some x) v.
  Lemma pre_bd gm tg a : pre gm tg a -> bd gm /\ length tg = length gm.
  Proof. intros [(-> & -> & _)|(tL & x & v & -> & -> & _)]; (split; [constructor|reflexivity]). Qed.
  Lemma pre_cut a b x : 1 <= a -> a <= b -> nth_error w (a - 1) = Some x -> firstn b w = firstn (a - 1) w ++ x :: firstn (b - a) (skipn a w).
  Proof.
    intros H1 H2 Hx. replace b with ((a - 1) + S (b - a)) at 1 by lia. rewrite firstn_plus, (skipn_cons _ _ _ Hx). replace (S (a - 1)) with a by lia. reflexivity.
  Qed.
  Lemma piece_turn st gm tg a b Y t : pre gm tg a -> a <= b -> Y = NT X \/ Y = TM TErr -> invat st (gm ++ [Y]) (tg ++ [t]) b -> w <> [] -> ends_list (la_at tix w b) ->
    (forall k, In k (ps_rec st) -> k = nb + (off gm + match Y with NT _ => 0 | _ => 1 end)) -> no_end tix semi (firstn (b - a) (skipn a w)) ->
    (forall a0, twf tix rs w Y t -> ev (pr_gens P) w t = GOk a0 -> piece tix base X w (firstn (b - a) (skipn a w)) (nth_error w b) a0) ->
    bad_end st \/ exists st' t' v, step st = inl st' /\ ps_rec st' = [] /\ invat st' [NT R] [t'] b /\ ev (pr_gens P) w t' = GOk (NonTerminal v) /\
      left_value tix base X semi g1 g2 g3 g4 w (firstn b w) (nth_error w b) v.
  Proof.
    intros Hpre Hab HY Hinv Hw Hla Hrec Hno Hpc. destruct (pre_bd _ _ _ Hpre) as [Hg Hl].
    pose proof (rule_at gm Y Hg HY) as Hr. set (j := match Y with NT _ => 0 | _ => 1 end) in *. set (r := mk_rule R (gm ++ [Y])) in *.
    assert (Hk : nb + (off gm + j) <> sr) by (rewrite sr_eq; assert (off gm <= 2) by (unfold off; destruct gm; lia); assert (j <= 1) by (unfold j; destruct Y; lia); lia).
    pose proof (bd_complete gm Y _ Hg HY Hla) as Hc. fold j in Hc.
    assert (Hacc : ~ accepting rs sr (gm ++ [Y])).
    { intros H. apply (accepting_g _ _ _ (md_fresh _ _ _ _ Hm)) in H. change (sx_start s) with R in H. destruct (base_not _ X_base) as [HX _]. destruct Hg; cbn [app] in H; [|discriminate]. injection H as H. destruct HY as [->| ->]; [congruence|discriminate]. }
    destruct (cases tix s P [] ss w Hm _ _ _ _ Hinv) as (d0 & Hd & _). fold rs sr p in Hd. pose proof Hd as Hd'. apply (complete_decides _ _ _ _ Hc Hk Hacc) in Hd'. subst d0.
    change (gm ++ [Y]) with ([] ++ r_rhs r) in Hinv, Hd.
    destruct (reduce_turn _ _ _ _ _ _ Hinv Hd Hr Hrec) as [Hbad|(ts1 & ts2 & args & gen' & v & st' & q & v' & i & Ets & Hl1 & Htw & Hgm' & Hgen & Hv & Hs & Hi & Hrec' & Hev & _)]; [left; auto|right].
    destruct ts1; [|discriminate]. cbn [app] in Ets, Hi. subst ts2. cbn [r_lhs r r_rhs] in Hi, Htw.
    exists st', (Node (nb + (off gm + j)) (tg ++ [t])), v. split; auto. split; auto. split; auto. split; auto.
    assert (Ht : twf tix rs w Y t).
    { apply twfs_app_inv in Htw as (b1 & b2 & E2 & T1 & T2). assert (E3 : tg = b1) by (eapply app_len_inj; [exact E2|]; pose proof (twfs_len _ _ _ _ _ T1); lia). rewrite E3 in E2. apply app_inv_head in E2. subst b2. inversion T2; auto. }
    rewrite gens_nth in Hgen.
    assert (Hx : forall a0 (l1 l2 : reducer N T E), ev (pr_gens P) w t = GOk a0 -> nth_error [l1; l2] j = Some (which a0 l1 l2)).
    { intros a0 l1 l2 He. unfold j. destruct HY as [E0|E0]; rewrite E0 in Ht |- *; inversion Ht; subst t; cbn [ev] in He.
      - match goal with _ : gbind ?z _ = GOk _ |- _ => destruct z as [l0| |]; try discriminate end. cbn [gbind] in He. match goal with _ : gbind ?z _ = GOk _ |- _ => destruct z; try discriminate end. cbn [gbind] in He. injection He as <-. reflexivity.
      - injection He as <-. reflexivity. }
    clearbody j. destruct Hpre as [(E1 & E2 & E3)|(tL & x & vL & E1 & E2 & E3 & Hx1 & Hx2 & HvL & HLv)]; subst gm tg; cbn [app gmap] in Hgm'.
    - subst a. destruct (ev (pr_gens P) w t) as [a0| |] eqn:Ea; try discriminate. cbn [gbind] in Hgm'. injection Hgm' as <-. rewrite Nat.sub_0_r in Hpc, Hno. cbn [skipn] in Hpc, Hno.
      eapply left_first; eauto. cbn [off Nat.add] in Hgen. pose proof (Hx a0 g1 g2 eq_refl) as E0. destruct j as [|[|j]]; cbn [nth_error] in E0, Hgen; [idtac..|destruct j; discriminate]. all: injection E0 as E0; injection Hgen as Hgen; rewrite <- E0, Hgen; exact Hv.
    - rewrite HvL in Hgm'. cbn [gbind ev] in Hgm'. rewrite Hx1 in Hgm'. cbn [gbind] in Hgm'. destruct (ev (pr_gens P) w t) as [a0| |] eqn:Ea; try discriminate. cbn [gbind] in Hgm'. injection Hgm' as <-.
      rewrite (pre_cut a b x E3 Hab Hx1). eapply left_more; eauto. cbn [off Nat.add] in Hgen. pose proof (Hx a0 g3 g4 eq_refl) as E0. destruct j as [|[|j]]; cbn [nth_error] in E0, Hgen; [idtac..|destruct j; discriminate]. all: injection E0 as E0; injection Hgen as Hgen; rewrite <- E0, Hgen; exact Hv.
  Qed.

  Definition result (st : pstate N T) : Prop :=
    (exists v, ends step st (Ok (ROk v, [])) /\ left_value tix base X semi g1 g2 g3 g4 w w None v) \/
    ((exists it, ends step st (Ok (RNotFound, it))) /\ unfinished tix base X semi w) \/ bad_end st.
  Lemma result_reaches st st' : reaches step st st' -> result st' -> result st.
  Proof.
    intros Hr [(v & H1 & H2)|[[[it H1] H2]|H]].
    - left. exists v. split; auto. eapply reaches_ends; eauto.
    - right. left. split; auto. exists it. eapply reaches_ends; eauto.
    - right. right. eapply bad_reaches; eauto.
  Qed.
  Lemma main : w <> [] -> forall n st gm tg a, length w - a = n -> a <= length w -> pre gm tg a -> invat st gm tg a -> ps_rec st = [] -> result st.
  Proof.
    intros Hw n. induction n as [n IHn] using (well_founded_induction lt_wf). intros st gm tg a En Hle Hpre Hinv Hrec. destruct (pre_bd _ _ _ Hpre) as [Hg Hl].
    assert (Hnn : nth_error w (length w) = None) by (apply nth_error_None; auto).
    (* once the item is read *)
    assert (Next : forall st1 t' v b, a <= b -> b <= length w -> (forall x, nth_error w b = Some x -> tix x = semi) -> reaches step st st1 -> ps_rec st1 = [] -> invat st1 [NT R] [t'] b -> ev (pr_gens P) w t' = GOk (NonTerminal v) ->
      left_value tix base X semi g1 g2 g3 g4 w (firstn b w) (nth_error w b) v -> result st).
    { intros st1 t' v b Hab Hbw Hend Hr1 Hrec1 Hi1 Hev Hlv. apply (result_reaches _ _ Hr1). assert (Ho : (exists x, nth_error w b = Some x) \/ nth_error w b = None) by (destruct (nth_error w b); eauto). destruct Ho as [[x Hx]|Hx].
      - destruct (end_turn _ _ _ _ _ Hi1 wants_sep Hx (Hend _ Hx)) as (st2 & Hs2 & Hi2 & Hrec2). assert (Hlt : b < length w) by (apply nth_error_Some; congruence).
        apply (result_reaches _ st2 (reaches_step _ _ _ Hs2)). apply (IHn (length w - S b) ltac:(lia) st2 [NT R; Semi] [t'; Leaf b] (S b) eq_refl ltac:(lia)); auto; [|congruence].
        right. exists t', x, v. replace (S b - 1) with b by lia. rewrite Hx in Hlv. repeat split; auto. lia.
      - pose proof Hx as Hx'. apply nth_error_None in Hx'. assert (Eb : b = length w) by lia. rewrite Eb, ?Hnn in *. rewrite firstn_all in Hlv. left. exists v. split; auto. eapply accept_turn; eauto. }
    destruct (Nat.eq_dec a (length w)) as [Ea|Hne].
    - rewrite Ea in Hinv. destruct (missing_turn _ _ _ Hg Hl Hinv Hrec) as (st1 & Hs1 & Hrec1 & Hi1).
      destruct (piece_turn st1 gm tg a (length w) (TM TErr) (Bad 0 0) Hpre ltac:(lia) (or_intror eq_refl) Hi1 Hw) as [Hbad|(st2 & t' & v & Hs2 & Hrec2 & Hi2 & Hev & Hlv)].
      + rewrite la_end. left. auto.
      + exact Hrec1.
      + rewrite Ea, Nat.sub_diag. intros ? [].
      + intros a0 _ He. cbn [ev] in He. rewrite Hnn, Ea, Nat.sub_diag. cbn [firstn]. destruct w as [|y w'] eqn:Ew; [congruence|]. cbn in He. injection He as <-. eapply piece_missing; eauto.
      + right. right. eapply bad_reaches; [apply reaches_step; exact Hs1|exact Hbad].
      + eapply (Next st2 t' v (length w)); auto; [intros x Hx; congruence|]. eapply reaches_trans; apply reaches_step; eauto.
    - assert (Ha : a < length w) by lia. destruct (find_end _ a eq_refl Hle) as (b & Hab & Hbw & Hno & Hend).
      assert (HD : D gm tg a b st [] [] a).
      { constructor; auto.
        - rewrite !app_nil_r. auto.
        - simpl. rewrite Nat.sub_diag. auto.
        - left. auto.
        - intros z _. rewrite app_nil_r. apply as_refl. }
      destruct (all_stops _ _ _ _ Hinv) as (r0 & [m Hm'] & Hr0). assert (Hfuel : loop step m st <> OutOfFuel) by (rewrite (Hm' m (le_n m)); auto).
      assert (Hne0 : no_end tix semi (firstn (b - a) (skipn a w))).
      { intros y Hy. apply In_nth_error in Hy as [i Hi]. assert (Hib : i < b - a) by (assert (i < length (firstn (b - a) (skipn a w))) by (apply nth_error_Some; congruence); rewrite firstn_length in *; lia).
        assert (Hi' : nth_error (skipn a w) i = Some y) by (rewrite <- (firstn_skipn (b - a) (skipn a w)), nth_error_app1; [auto|apply nth_error_Some; congruence]). rewrite nth_skip in Hi'. eapply Hno; [| |exact Hi']; lia. }
      assert (Hla : ends_list (la_at tix w b)) by (unfold la_at; destruct (nth_error w b) as [x|]; [right; rewrite (Hend _ eq_refl); auto|left; auto]).
      destruct (D_phase gm tg a b Hg Hl Ha Hab Hbw Hno Hend m st [] [] a HD Hfuel) as [(st1 & t & R1 & R2)|[(st1 & d1 & td1 & pos1 & R1 & R2 & R3)|R1]]; [| |right; right; auto].
      + pose proof (D_lvs _ _ _ _ _ _ _ _ R2) as Hlv. cbn [flat_map] in Hlv. rewrite app_nil_r in Hlv.
        destruct (piece_turn st1 gm tg a b (NT X) t Hpre Hab (or_introl eq_refl) (D_inv _ _ _ _ _ _ _ _ R2) Hw Hla) as [Hbad|(st2 & t' & v & Hs2 & Hrec2 & Hi2 & Hev & Hlv2)]; auto.
        * rewrite (D_rec _ _ _ _ _ _ _ _ R2). intros ? [].
        * intros a0 H1 H2. apply piece_right. exact (proj1 (tree_value w) _ _ H1 X_base _ _ _ Hlv H2).
        * right. right. eapply bad_reaches; eauto.
        * eapply (Next st2 t' v b); eauto. eapply reaches_trans; [exact R1|apply reaches_step; auto].
      + pose proof (D_le _ _ _ _ _ _ _ _ R2) as Hle1. pose proof (stuck_not gm tg a b Hg Hl Ha Hab Hbw Hend _ _ _ _ R2 R3) as Hns.
        destruct (Nat.lt_ge_cases pos1 (length w)) as [Hlt|Hge].
        * destruct (seg_error gm tg a b Hg Hl Ha Hab Hbw Hno st1 d1 td1 pos1 R2 R3 Hlt) as (st2 & hi & S1 & S2 & S3 & S4 & S5).
          assert (Hreach : reaches step st st2) by (eapply reaches_trans; eauto).
          destruct (piece_turn st2 gm tg a b (TM TErr) (Bad a hi) Hpre Hab (or_intror eq_refl) S2 Hw Hla) as [Hbad|(st3 & t' & v & Hs3 & Hrec3 & Hi3 & Hev & Hlv3)]; auto.
          -- intros a0 _ He. cbn [ev] in He. injection He as <-. destruct (nth_error w b) as [x|] eqn:Ex.
             ++ apply piece_wrong; auto.
             ++ change (piece tix base X w (firstn (b - a) (skipn a w)) None (ErrorSym (firstn (S hi - a) (skipn a w)))). rewrite (S5 eq_refl). apply nth_error_None in Ex. apply piece_last.
                ** intros E0. unfold seg in E0. apply (f_equal (@length _)) in E0. rewrite firstn_length, skipn_length in E0. simpl in E0. lia.
                ** eapply (stuck_begins gm tg a b Hg Hl Ha Hab Hbw); eauto. lia.
          -- right. right. eapply bad_reaches; eauto.
          -- eapply (Next st3 t' v b); eauto. eapply reaches_trans; [exact Hreach|apply reaches_step; auto].
        * right. left. assert (Ep : pos1 = length w) by lia. assert (Eb : b = length w) by lia. subst b.
          assert (Hd1 : d1 <> []) by (intros Ed; apply (D_nil gm tg a (length w) Hl Ha Hab Hbw _ _ _ _ R2) in Ed; lia). rewrite Ep in R2, R3. rewrite la_end in R3. split.
          -- destruct (not_found _ _ _ (D_inv _ _ _ _ _ _ _ _ R2) R3) as [it Hit].
             ++ intros (k & q & b0 & r & Hv & Hr & Hq). destruct (wants_err gm d1 _ _ _ _ Hg (D_base _ _ _ _ _ _ _ _ R2) Hv Hr Hq) as [Ed _]. auto.
             ++ exists it. eapply reaches_ends; eauto.
          -- exists (firstn (length w - a) (skipn a w)). split; auto. split; [intros E0; apply (f_equal (@length _)) in E0; rewrite firstn_length, skipn_length in E0; simpl in E0; lia|].
             split; [eapply (read_begins gm tg a (length w)); eauto|]. split; auto.
             destruct Hpre as [(_ & _ & ->)|(tL & x & vL & _ & _ & E3 & Hx1 & Hx2 & _)].
             ++ left. rewrite Nat.sub_0_r. cbn [skipn]. symmetry. apply firstn_all.
             ++ right. exists (firstn (a - 1) w), x. split; auto. rewrite <- (pre_cut a (length w) x E3 Hle Hx1). symmetry. apply firstn_all.
  Qed.

  Lemma list_result : w <> [] -> (exists v, returns tix P w (ROk v) /\ left_value tix base X semi g1 g2 g3 g4 w w None v) \/
    (returns tix P w RNotFound /\ unfinished tix base X semi w) \/ panics tix P w \/ exists e, returns tix P w (RReducer e).
  Proof.
    intros Hw. destruct (main Hw _ (ps_init P w) [] [] 0 eq_refl ltac:(lia) ltac:(left; auto) init_inv eq_refl) as [(v & H1 & H2)|[[[it H1] H2]|[H1|(e & it & H1)]]].
    - left. exists v. split; auto. eapply ends_returns; eauto.
    - right. left. split; auto. eapply ends_returns; eauto.
    - right. right. left. eapply ends_panics; eauto.
    - right. right. right. exists e. eapply ends_returns; eauto.
  Qed.
  Lemma empty_panics : w = [] -> panics tix P w.
  Proof.
    intros Hw. pose proof init_inv as Hi. replace 0 with (length w) in Hi by (rewrite Hw; auto).
    destruct (missing_turn (ps_init P w) [] [] bd_nil eq_refl Hi eq_refl) as (st1 & Hs1 & _ & Hi1). eapply ends_panics. eapply reaches_ends; [apply reaches_step; exact Hs1|].
    assert (Hc : complete rs sr [TM TErr] (nb + (0 + 1)) TEoi) by exact (bd_complete [] (TM TErr) TEoi bd_nil (or_intror eq_refl) (or_introl eq_refl)).
    destruct (cases tix s P [] ss w Hm _ _ _ _ Hi1) as (d0 & Hd & Hcs). fold rs sr p in Hd. rewrite la_end in Hd. cbn [app] in Hd. apply (complete_decides _ _ _ _ Hc) in Hd; [|rewrite sr_eq; lia|intros H; apply (accepting_g _ _ _ (md_fresh _ _ _ _ Hm)) in H; discriminate]. subst d0.
    apply ends_step. destruct Hcs as [(r & _ & _ & E0 & _)|(r & dd & ts1 & ts2 & args & gen & Hr & Eg & _ & _ & Ets & _ & Htw & _)]; auto.
    exfalso. fold rs in Hr. rewrite nth_r in Hr. cbn in Hr. injection Hr as <-. clear Eg.
    cbn [r_rhs r2] in Htw. inversion Htw as [|? ? ? ? T1 T2]; subst. inversion T2; subst. inversion T1. simpl in *. lia.
  Qed.
  Lemma reported_det u x l1 l2 : reported tix base X u x l1 -> reported tix base X u x l2 -> l1 = l2.
  Proof. intros H1 H2. inversion H1; subst; inversion H2; subst; auto; contradiction. Qed.
  Lemma value_stmt u a0 : value tix base (NT X) u a0 -> is_stmt tix base X u.
  Proof.
    intros H. assert (Hu : firstn (length u) (skipn 0 u) = u) by (simpl; apply firstn_all).
    destruct (proj1 value_tree _ _ _ H u 0 Hu) as (t & A1 & A2 & A3 & _). pose proof (proj1 (tree_der tix (gram s) u) _ _ A1 A2) as Hd. rewrite A3, tok_slice, Hu in Hd by lia.
    apply der_base; auto. apply X_base.
  Qed.
  Lemma piece_det u nx a1 a2 : piece tix base X w u nx a1 -> piece tix base X w u nx a2 -> a1 = a2.
  Proof.
    assert (V1 : forall a0, value tix base (NT X) u a0 -> ~ is_stmt tix base X u -> False) by (intros a0 H H'; apply H'; eapply value_stmt; eauto).
    assert (V2 : forall a0, value tix base (NT X) u a0 -> ~ begins tix base X u -> False) by (intros a0 H H'; apply H'; exists []; rewrite app_nil_r; eapply value_stmt; eauto).
    assert (V3 : forall a0, value tix base (NT X) u a0 -> u = [] -> False) by (intros a0 H E0; apply value_stmt, der_nonempty in H; rewrite E0 in H; apply H; reflexivity).
    intros H1 H2. destruct H1 as [nx a1 Hv|x sl Hn Hr|Hn Hb'|y w' E0 Ew].
    - inversion H2; subst; [eapply value_unique; eauto|exfalso; eauto..].
    - inversion H2; subst; [exfalso; eauto|f_equal; eapply reported_det; eauto].
    - inversion H2; subst; [exfalso; eauto|auto|contradiction].
    - inversion H2; subst; [exfalso; eauto|contradiction|congruence].
  Qed.
  Lemma split_last (w0 : list T) x u : forall w1 x' u', no_end tix semi u -> no_end tix semi u' -> tix x = semi -> tix x' = semi -> w0 ++ x :: u = w1 ++ x' :: u' -> w0 = w1 /\ x = x' /\ u = u'.
  Proof.
    induction w0 as [|y w0 IH]; intros [|y' w1] x' u' H1 H2 Hx Hx' E0; simpl in E0.
    - injection E0 as -> ->. auto.
    - exfalso. injection E0 as -> ->. apply (H1 x'); auto. apply in_or_app. simpl. auto.
    - exfalso. injection E0 as -> <-. apply (H2 x); auto. apply in_or_app. simpl. auto.
    - injection E0 as -> E0. destruct (IH w1 x' u') as (-> & -> & ->); auto.
  Qed.
  Lemma no_sep (w0 : list T) x u : tix x = semi -> no_end tix semi (w0 ++ x :: u) -> False.
  Proof. intros Hx H. apply (H x); auto. apply in_or_app. simpl. auto. Qed.
  Lemma left_det w1 nx v1 v2 : left_value tix base X semi g1 g2 g3 g4 w w1 nx v1 -> left_value tix base X semi g1 g2 g3 g4 w w1 nx v2 -> v1 = v2.
  Proof.
    intros H. revert v2. induction H as [u nx a0 v Hu Hpc Hv|w0 x u nx v0 a0 v Hl IH Hx Hu Hpc Hv]; intros v2 H2.
    - inversion H2 as [u' nx' a1 v' Hu' Hpc' Hv' E0|w1 x u' nx' v0 a1 v' Hl Hx Hu' Hpc' Hv' E0].
      + rewrite (piece_det _ _ _ _ Hpc' Hpc) in Hv'. congruence.
      + exfalso. rewrite <- E0 in Hu. eapply no_sep; eauto.
    - inversion H2 as [u' nx' a1 v' Hu' Hpc' Hv' E0|w1 x' u' nx' v0' a1 v' Hl' Hx' Hu' Hpc' Hv' E0].
      + exfalso. eapply no_sep; eauto.
      + destruct (split_last _ _ _ _ _ _ Hu' Hu Hx' Hx E0) as (E1 & E2 & E3). rewrite E1, ?E2, ?E3 in *. rewrite (piece_det _ _ _ _ Hpc' Hpc) in Hv'. apply IH in Hl'. congruence.
  Qed.
  Lemma piece_finished u a0 : piece tix base X w u None a0 -> u <> [] -> begins tix base X u -> ~ is_stmt tix base X u -> False.
  Proof. intros H H1 H2 H3. inversion H; subst; try contradiction. apply H3. eapply value_stmt; eauto. Qed.
  Lemma left_finished w1 v : left_value tix base X semi g1 g2 g3 g4 w w1 None v -> ~ unfinished tix base X semi w1.
  Proof.
    intros H (u' & Hn & Hne & Hbg & Hns & Hc). remember None as nx eqn:Enx. destruct H as [u nx a0 v Hu Hpc Hv|w0 x u nx v0 a0 v Hl Hx Hu Hpc Hv]; subst nx.
    - destruct Hc as [->|(w2 & x & Hx & ->)]; [eapply piece_finished; eauto|eapply no_sep; eauto].
    - destruct Hc as [E0|(w2 & x' & Hx' & E0)]; [rewrite <- E0 in Hn; eapply no_sep; eauto|].
      destruct (split_last _ _ _ _ _ _ Hu Hn Hx Hx' E0) as (_ & _ & ->). eapply piece_finished; eauto.
  Qed.

  (** ** A measure that every shift and every detected error lowers *)
  Notation n := (length w).
  Definition part (gm : list sym) (tg : list tree) (a b : nat) : Prop :=
    bd gm /\ length tg = length gm /\ a < n /\ a <= b /\ b <= n /\
    (forall i x, a <= i -> i < b -> nth_error w i = Some x -> tix x <> semi) /\ (forall x, nth_error w b = Some x -> tix x = semi).
  Inductive cls : pstate N T -> list sym -> list tree -> nat -> nat -> Prop :=
  | cls_item gm tg a b st d td pos : part gm tg a b -> D gm tg a b st d td pos -> cls st (gm ++ d) (tg ++ td) pos ((n - pos) + 2 * (n - a) + 2)
  | cls_err gm tg a b st lo hi pos h : part gm tg a b -> invat st (gm ++ [TM TErr]) (tg ++ [Bad lo hi]) pos -> rec_ok gm st -> lo <= pos -> a <= pos <= b -> h <= b ->
      cls st (gm ++ [TM TErr]) (tg ++ [Bad lo hi]) pos ((n - h) + 2 * (n - pos) + 1)
  | cls_miss gm tg st : bd gm -> length tg = length gm -> invat st gm tg n -> ps_rec st = [] -> cls st gm tg n 1
  | cls_gone gm ts st : bd gm -> invat st (gm ++ [TM TErr]) ts n -> rec_ok gm st -> cls st (gm ++ [TM TErr]) ts n 0
  | cls_list st ts pos V : invat st [NT R] ts pos -> ps_rec st = [] -> 3 * (n - pos) <= V -> pos <= n -> (forall x, nth_error w pos = Some x -> tix x = semi) -> cls st [NT R] ts pos V.

  Lemma cls_inv st g ts pos V : cls st g ts pos V -> invat st g ts pos.
  Proof. intros [gm tg a b st0 d td pos0 _ H|gm tg a b st0 lo hi pos0 h _ H|gm tg st0 _ _ H|gm ts0 st0 _ H|st0 ts0 pos0 V0 H]; auto. apply (D_inv _ _ _ _ _ _ _ _ H). Qed.
  Lemma no_eoi g : ~ wants rs sr g (TM TEoi).
  Proof.
    intros (k & q0 & b0 & r & _ & Hr & Hq). apply nth_error_In in Hr, Hq. unfold rs, augment in Hr. apply in_app_or in Hr as [Hr|[<-|[]]].
    - eapply (md_eoi _ _ _ _ Hm); eauto.
    - destruct Hq as [Hq|[]]; discriminate.
  Qed.
  Lemma eoi_stuck st g ts st' : invat st g ts n -> decides rs sr p g TEoi None -> ~ wants rs sr g (TM TErr) -> step st <> inl st'.
  Proof.
    intros Hinv Hd Hw Hs. destruct (cases tix s P [] ss w Hm _ _ _ _ Hinv) as (d0 & Hd0 & Hc). rewrite la_end in Hd0. assert (d0 = None) by (eapply decides_det; eauto). subst d0.
    destruct Hc as (_ & [(it & E0 & _)|(s' & E0 & _ & g' & ts' & ts2 & lo & hi & pos' & _ & Hw' & _ & _ & He & _)]); [congruence|]. destruct (He eq_refl) as (_ & _ & -> & _). contradiction.
  Qed.
  Lemma ends_dec pos : ends_list (la_at tix w pos) \/ ~ ends_list (la_at tix w pos).
  Proof.
    unfold la_at, ends_list. destruct (nth_error w pos) as [x|]; [|left; left; auto]. destruct (Nat.eq_dec (tix x) semi) as [E0|E0]; [left; right; congruence|right; intros [E1|E1]; congruence].
  Qed.
  Lemma cls_next st g ts a : invat st g ts a -> ps_rec st = [] -> bd g -> a <= n -> exists V, cls st g ts a V /\ V <= 3 * (n - a) + 2 /\ (a = n -> V = 1).
  Proof.
    intros Hinv Hrec Hg Hle. pose proof (inv_len _ _ _ _ Hinv) as [_ Hl]. destruct (Nat.eq_dec a n) as [->|Hne].
    - exists 1. split; [apply cls_miss; auto|]. split; [lia|auto].
    - destruct (find_end _ a eq_refl Hle) as (b & Hab & Hbw & Hno & Hend). exists ((n - a) + 2 * (n - a) + 2). split; [|split; lia].
      assert (HD : D g ts a b st [] [] a).
      { constructor; auto.
        - rewrite !app_nil_r. auto.
        - simpl. rewrite Nat.sub_diag. auto.
        - left. auto.
        - intros z _. rewrite app_nil_r. apply as_refl. }
      assert (Hsg : part g ts a b) by (repeat split; auto; lia). pose proof (cls_item _ _ _ _ _ _ _ _ Hsg HD) as H. rewrite !app_nil_r in H. exact H.
  Qed.
  (** an item or an error symbol becomes part of the list *)
  Lemma piece_one st gm Y ts b k st' : bd gm -> Y = NT X \/ Y = TM TErr -> invat st (gm ++ [Y]) ts b -> decides rs sr p (gm ++ [Y]) (la_at tix w b) (Some (Reduce k)) -> ends_list (la_at tix w b) ->
    (forall k', In k' (ps_rec st) -> k' = nb + (off gm + match Y with NT _ => 0 | _ => 1 end)) -> step st = inl st' ->
    exists ts', nth_error rs k = Some (mk_rule R (gm ++ [Y])) /\ invat st' [NT R] ts' b /\ ps_rec st' = [].
  Proof.
    intros Hg HY Hinv Hd Hla Hrec Hs. pose proof (rule_at gm Y Hg HY) as Hr. pose proof (bd_complete gm Y _ Hg HY Hla) as Hc. set (j := match Y with NT _ => 0 | _ => 1 end) in *. set (r := mk_rule R (gm ++ [Y])) in *.
    assert (Hk : nb + (off gm + j) <> sr) by (rewrite sr_eq; assert (off gm <= 2) by (unfold off; destruct gm; lia); assert (j <= 1) by (unfold j; destruct Y; lia); lia).
    assert (Hacc : ~ accepting rs sr (gm ++ [Y])).
    { intros H. apply (accepting_g _ _ _ (md_fresh _ _ _ _ Hm)) in H. change (sx_start s) with R in H. destruct (base_not _ X_base) as [HX _]. destruct Hg; cbn [app] in H; [|discriminate]. injection H as H. destruct HY as [->| ->]; [congruence|discriminate]. }
    pose proof Hd as Hd'. apply (complete_decides _ _ _ _ Hc Hk Hacc) in Hd'. injection Hd' as ->.
    change (gm ++ [Y]) with ([] ++ r_rhs r) in Hinv, Hd.
    destruct (reduce_turn_one _ _ _ _ _ _ Hinv Hd Hr Hrec) as [[_ Hbad]|(ts1 & ts2 & args & gen' & v & st2 & q & v' & i & Ets & Hl1 & Htw & Hgm' & Hgen & Hv & Hs2 & Hi & Hrec' & _)]; [exfalso; eapply Hbad; eauto|].
    rewrite Hs in Hs2. injection Hs2 as <-. eexists. split; [exact Hr|]. split; [exact Hi|auto].
  Qed.
  Lemma err_none gm t : bd gm -> ends_list t -> ~ decides rs sr p (gm ++ [TM TErr]) t None.
  Proof.
    intros Hg Ht Hd. pose proof (bd_complete gm (TM TErr) _ Hg (or_intror eq_refl) Ht) as Hc. destruct Hd as (_ & _ & Hd). refine (Hd _ _ Hc).
    rewrite sr_eq. assert (off gm <= 2) by (unfold off; destruct gm; lia). lia.
  Qed.

  Lemma cls_shift_one st g ts pos V q st' : cls st g ts pos V -> decides rs sr p g (la_at tix w pos) (Some (Shift q)) -> step st = inl st' ->
    exists g' ts' V', cls st' g' ts' (S pos) V' /\ length g' <= S (length g) /\ V' < V.
  Proof.
    intros [gm tg a b st0 d td pos0 Hsg H|gm tg a b st0 lo hi pos0 h Hsg H Hrec Hlo Hpos Hh|gm tg st0 Hg Hl H Hrec|gm ts0 st0 Hg H Hrec|st0 ts0 pos0 V0 H Hrec HV Hle Hend] Hd Hs.
    - pose proof Hsg as (Hg & Hl & Ha & Hab & Hbw & Hno & Hend). pose proof (D_le _ _ _ _ _ _ _ _ H) as Hle. destruct (nth_error w pos0) as [x|] eqn:Ex.
      + assert (Hla : la_at tix w pos0 = TSym (tix x)) by (unfold la_at; rewrite Ex; reflexivity). rewrite Hla in Hd. assert (Hlt : pos0 < n) by (apply nth_error_Some; congruence).
        destruct (Nat.eq_dec pos0 b) as [->|Hne].
        * exfalso. pose proof (Hend _ Ex) as Hx. destruct Hd as [Hw _]. rewrite Hx in Hw. exact (wants_semi _ _ Hg (D_base _ _ _ _ _ _ _ _ H) Hw).
        * assert (HD : exists st2, step st0 = inl st2 /\ D gm tg a b st2 (d ++ [TM (TSym (tix x))]) (td ++ [Leaf pos0]) (S pos0)) by (eapply D_shift; eauto; lia).
          destruct HD as (st2 & Hs2 & HD). rewrite Hs in Hs2. injection Hs2 as <-.
          eexists _, _, _. split; [eapply cls_item; [exact Hsg|exact HD]|]. split; [rewrite !app_length; simpl; lia|]. lia.
      + exfalso. assert (Hla : la_at tix w pos0 = TEoi) by (unfold la_at; rewrite Ex; reflexivity). rewrite Hla in Hd. destruct Hd as [Hw _]. exact (no_eoi _ Hw).
    - exfalso. destruct Hsg as (Hg & _). destruct Hd as [Hw _]. exact (err_wants gm Hg _ Hw).
    - exfalso. rewrite la_end in Hd. destruct Hd as [Hw _]. exact (no_eoi _ Hw).
    - exfalso. destruct Hd as [Hw _]. exact (err_wants gm Hg _ Hw).
    - destruct (nth_error w pos0) as [x|] eqn:Ex.
      + assert (Hlt : pos0 < n) by (apply nth_error_Some; congruence). destruct (end_turn _ _ _ _ _ H wants_sep Ex (Hend _ eq_refl)) as (st2 & Hs2 & Hi2 & Hrec2). rewrite Hs in Hs2. injection Hs2 as <-.
        destruct (cls_next _ _ _ _ Hi2) as (V' & H1 & H2 & H3); [congruence|constructor|lia|]. eexists _, _, V'. split; [exact H1|]. split; [simpl; lia|]. lia.
      + exfalso. assert (Hla : la_at tix w pos0 = TEoi) by (unfold la_at; rewrite Ex; reflexivity). rewrite Hla in Hd. destruct Hd as [Hw _]. exact (no_eoi _ Hw).
  Qed.
  Lemma cls_reduce_one st g ts pos V k st' : cls st g ts pos V -> decides rs sr p g (la_at tix w pos) (Some (Reduce k)) -> step st = inl st' ->
    exists d r ts', nth_error rs k = Some r /\ g = d ++ r_rhs r /\ cls st' (d ++ [NT (r_lhs r)]) ts' pos V.
  Proof.
    intros [gm tg a b st0 d td pos0 Hsg H|gm tg a b st0 lo hi pos0 h Hsg H Hrec Hlo Hpos Hh|gm tg st0 Hg Hl H Hrec|gm ts0 st0 Hg H Hrec|st0 ts0 pos0 V0 H Hrec HV Hle Hend] Hd Hs.
    - pose proof Hsg as (Hg & Hl & Ha & Hab & Hbw & Hno & Hend). pose proof (D_le _ _ _ _ _ _ _ _ H) as Hle. pose proof Hd as (_ & _ & Hk & Hc & _).
      destruct (complete_cases gm d k _ Hg (D_base _ _ _ _ _ _ _ _ H) Hk Hc) as [(Ek & Ed & Hla)|(Hkb & _)].
      + assert (Eb : pos0 = b) by (eapply la_seg; eauto). subst d pos0.
        destruct (piece_one _ _ _ _ _ _ _ Hg (or_introl eq_refl) (D_inv _ _ _ _ _ _ _ _ H) Hd Hla ltac:(rewrite (D_rec _ _ _ _ _ _ _ _ H); intros ? []) Hs) as (ts' & Hr & Hi & Hrec').
        eexists [], _, ts'. split; [exact Hr|]. split; [reflexivity|]. cbn [app r_lhs]. apply cls_list; auto. lia.
      + assert (HD : (bad_end st0 /\ forall st', step st0 <> inl st') \/ exists st' r d1 td', step st0 = inl st' /\ nth_error rs k = Some r /\ d = d1 ++ r_rhs r /\ D gm tg a b st' (d1 ++ [NT (r_lhs r)]) td' pos0) by (eapply D_reduce_one; eauto).
        destruct HD as [[_ Hbad]|(st2 & r & d1 & td' & Hs2 & Hr & Ed & HD)]; [exfalso; eapply Hbad; eauto|].
        rewrite Hs in Hs2. injection Hs2 as <-. exists (gm ++ d1), r, (tg ++ td'). split; auto. split; [rewrite Ed, app_assoc; reflexivity|]. rewrite <- app_assoc. apply (cls_item gm tg a b); auto.
    - pose proof Hsg as (Hg & Hl & Ha & Hab & Hbw & Hno & Hend). destruct (ends_dec pos0) as [Hla|Hla]; [|exfalso; apply (err_decides gm Hg) in Hd; auto; discriminate].
      assert (Eb : pos0 = b) by (eapply la_seg; eauto). subst pos0.
      destruct (piece_one _ _ _ _ _ _ _ Hg (or_intror eq_refl) H Hd Hla Hrec Hs) as (ts' & Hr & Hi & Hrec').
      eexists [], _, ts'. split; [exact Hr|]. split; [reflexivity|]. cbn [app r_lhs]. apply cls_list; auto. lia.
    - exfalso. rewrite la_end in Hd. apply (end_decides _ _ _ Hg (or_introl eq_refl)) in Hd. discriminate.
    - assert (Hla : ends_list (la_at tix w n)) by (rewrite la_end; left; auto).
      destruct (piece_one _ _ _ _ _ _ _ Hg (or_intror eq_refl) H Hd Hla Hrec Hs) as (ts' & Hr & Hi & Hrec').
      eexists [], _, ts'. split; [exact Hr|]. split; [reflexivity|]. cbn [app r_lhs]. apply cls_list; auto; [lia|]. intros x Hx. exfalso. assert (n < n) by (apply nth_error_Some; congruence). lia.
    - exfalso. destruct Hd as (_ & _ & Hk & Hc & _). exact (list_done _ _ Hk Hc).
  Qed.
  Lemma cls_error_one st g ts pos V st' : cls st g ts pos V -> decides rs sr p g (la_at tix w pos) None -> step st = inl st' ->
    exists g' ts' pos' V', cls st' g' ts' pos' V' /\ length g' <= S (length g) /\ V' < V.
  Proof.
    intros [gm tg a b st0 d td pos0 Hsg H|gm tg a b st0 lo hi pos0 h Hsg H Hrec Hlo Hpos Hh|gm tg st0 Hg Hl H Hrec|gm ts0 st0 Hg H Hrec|st0 ts0 pos0 V0 H Hrec HV Hle Hend] Hd Hs.
    - pose proof Hsg as (Hg & Hl & Ha & Hab & Hbw & Hno & Hend). pose proof (D_le _ _ _ _ _ _ _ _ H) as Hle.
      assert (Hnil : d = [] <-> pos0 = a) by (eapply D_nil; eauto).
      assert (Hw : forall d1 d2 : list sym, d = d1 ++ d2 -> d1 <> [] -> ~ wants rs sr (gm ++ d1) (TM TErr)).
      { intros d1 d2 E0 Hne (k & q & b0 & r & Hv & Hr & Hq). assert (Hb1 : Forall base_sym d1) by (pose proof (D_base _ _ _ _ _ _ _ _ H) as Hb1; rewrite E0 in Hb1; apply Forall_app in Hb1; tauto).
        destruct (wants_err gm d1 _ _ _ _ Hg Hb1 Hv Hr Hq). congruence. }
      destruct (Nat.lt_ge_cases pos0 n) as [Hlt|Hge].
      + destruct (error_turn st0 gm d tg td pos0 (D_inv _ _ _ _ _ _ _ _ H) Hg Hl Hlt Hd Hw (rec_nil _ _ (D_rec _ _ _ _ _ _ _ _ H))) as (st2 & q & h & eh & Ef & Hs2 & Hi & Hr' & _). rewrite Hs in Hs2. injection Hs2 as <-.
        destruct d as [|Y d].
        * assert (Epos : pos0 = a) by (apply Hnil; auto). subst pos0. cbn [firstn length map fold_left] in Ef. injection Ef as <- <-. rewrite Nat.min_id in Hi.
          eexists _, _, _, _. split; [apply (cls_err gm tg a b _ _ _ _ a Hsg Hi Hr'); lia|]. split; [rewrite !app_length; simpl; lia|]. lia.
        * destruct (D_bot _ _ _ _ _ _ _ _ H) as [E0|(es & e & E1 & E2 & E3)]; [discriminate|]. rewrite E1 in Ef.
          assert (Eh : h = a) by (pose proof (fold_upd_last es e a (pos0, pos0) E2) as F; rewrite Ef in F; auto). rewrite Eh in Hi.
          assert (Hpa : pos0 <> a) by (intros E0; apply Hnil in E0; discriminate).
          rewrite (Nat.min_l a pos0) in Hi by lia.
          eexists _, _, _, _. split; [apply (cls_err gm tg a b _ _ _ _ pos0 Hsg Hi Hr'); lia|]. split; [rewrite !app_length; simpl; lia|]. lia.
      + exfalso. assert (pos0 = n) by lia. subst pos0. rewrite la_end in Hd. eapply (eoi_stuck _ _ _ _ (D_inv _ _ _ _ _ _ _ _ H) Hd); [|exact Hs]. apply (Hw d []); [rewrite app_nil_r; auto|].
        intros E0. apply Hnil in E0. lia.
    - pose proof Hsg as (Hg & Hl & Ha & Hab & Hbw & Hno & Hend).
      assert (Hw : forall d1 d2 : list sym, [TM TErr] = d1 ++ d2 -> d1 <> [] -> ~ wants rs sr (gm ++ d1) (TM TErr)).
      { intros d1 d2 E0 Hne Hw. destruct d1 as [|Y [|Y' d1]]; [congruence| |destruct d1; discriminate]. injection E0 as <- _. exact (err_wants gm Hg _ Hw). }
      assert (Hpb : pos0 <> b).
      { intros ->. refine (err_none _ _ Hg _ Hd). unfold la_at, ends_list. destruct (nth_error w b) as [x|] eqn:Ex; [right; rewrite (Hend _ eq_refl); auto|left; auto]. }
      assert (Hlt : pos0 < n) by lia.
      destruct (error_turn st0 gm [TM TErr] tg [Bad lo hi] pos0 H Hg Hl Hlt Hd Hw Hrec) as (st2 & q & h1 & eh & Ef & Hs2 & Hi & Hr' & _). rewrite Hs in Hs2. injection Hs2 as <-.
      assert (Ht : exists q st1, ps_stack st0 = (q, EErr lo hi) :: st1) by (eapply top_err; eauto).
      destruct Ht as (q0 & st1 & Hk). rewrite Hk in Ef. cbn [firstn length map snd fold_left upd fst] in Ef. injection Ef as <- <-.
      rewrite Nat.min_r in Hi by auto. cbn [Nat.min] in Hi. rewrite Nat.min_id in Hi.
      eexists _, _, _, _. split; [apply (cls_err gm tg a b _ _ _ _ h Hsg Hi Hr'); lia|]. split; [rewrite !app_length; simpl; lia|]. lia.
    - destruct (missing_turn _ _ _ Hg Hl H Hrec) as (st2 & Hs2 & Hrec2 & Hi2). rewrite Hs in Hs2. injection Hs2 as <-. eexists _, _, _, 0. split; [apply (cls_gone gm); eauto|]. split; [rewrite app_length; simpl; lia|lia].
    - exfalso. rewrite la_end in Hd. exact (err_none _ _ Hg (or_introl eq_refl) Hd).
    - exfalso. destruct Hd as (Hnw & Hacc & _). destruct (nth_error w pos0) as [x|] eqn:Ex.
      + unfold la_at in Hnw. rewrite Ex, (Hend _ eq_refl) in Hnw. exact (Hnw wants_sep).
      + unfold la_at in Hacc. rewrite Ex in Hacc. assert (accepting rs sr [NT R]) by (change R with (sx_start s); apply accepting_start). tauto.
  Qed.
  Lemma cls_init : exists V, cls (ps_init P w) [] [] 0 V /\ V <= 3 * n + 2.
  Proof.
    destruct (cls_next (ps_init P w) [] [] 0 init_inv eq_refl) as (V & H1 & H2 & _); [constructor|lia|]. exists V. split; auto. lia.
  Qed.
End LeftRun.
