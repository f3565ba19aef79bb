(** * Recovering lists are parsed in linear time.  C106. *)
From Coq Require Import List Arith Lia Bool.
From Verif Require Import Lib Grammar LrModel LrSpec LrSets LrStates LrNew LrTop ParseModel Trees ParseSpec ParseInv GramFacts ParseTerm ParseTop ParseMore LoopSpec ParseExamples PropParse PropLr SteadySpec PropSteady SkipSpec StmtSpec PropStmt SepRecSpec PropSepRec LeftRecSpec PropLeftRec ProdCheck ParseLin ParseAmort ListTimeSpec.
From Verif Require ParseStmt ParseSepRec ParseLeftRec.
Import ListNotations.

Section Steady.
  Variables (rules : list rule) (start ss R sep : nat).
  Hypothesis Hfresh : ~ In ss (nonterminals rules).
  Hypothesis Hl : recovers_in_list rules R sep.
  Let rs := augment rules start ss.
  Let sr := length rules.
  Notation Sep := (TM (TSym sep)).

  Lemma rs_rule k r : nth_error rs k = Some r -> In r rules \/ r = mk_rule ss [NT start] /\ k = sr.
  Proof.
    intros H. destruct (Nat.eq_dec k sr) as [->|Hk].
    - right. unfold rs in H. rewrite augment_start in H. injection H as <-. auto.
    - left. unfold rs in H. rewrite augment_old in H by auto. eapply nth_error_In; eauto.
  Qed.
  (** nothing follows an [R] *)
  Lemma end_R g it : valid rs sr g it -> forall g', g = g' ++ [NT R] -> forall r, nth_error rs (i_rule it) = Some r -> nth_error (r_rhs r) (i_pos it) = None.
  Proof.
    induction 1 as [|g k q b r Y H IH Hr HY|g k q b r A k' r' t H IH Hr HA Hr' Hl' Hf]; cbn [i_rule i_pos] in *; intros g' E0 r0 Hr0.
    - destruct g'; discriminate.
    - assert (r0 = r) by congruence. subst r0. apply app_inj_tail in E0 as [_ ->]. apply nth_error_split in HY as (l1 & l2 & E1 & <-).
      destruct (rs_rule _ _ Hr) as [Hin|[-> _]].
      + destruct (Hl r _ _ _ Hin E1) as (_ & H2 & _). destruct (H2 eq_refl) as (_ & -> & _). apply nth_error_None. rewrite E1, app_length. simpl. lia.
      + cbn [r_rhs] in *. destruct l1 as [|? [|? ?]]; try discriminate. reflexivity.
    - exfalso. specialize (IH _ E0 _ Hr). congruence.
  Qed.
  (** recovery is possible only in the beginning and behind a separator *)
  Lemma wants_err g : wants rs sr g (TM TErr) -> g = [] \/ exists g', g = g' ++ [Sep].
  Proof.
    intros (k & p & la & r & Hv & Hr & Hp). apply nth_error_split in Hp as (l1 & l2 & E1 & <-).
    destruct (rs_rule _ _ Hr) as [Hin|[-> _]]; [|cbn [r_rhs] in E1; destruct l1 as [|? [|? ?]]; discriminate].
    destruct (Hl r _ _ _ Hin E1) as (H1 & _ & _). destruct (H1 eq_refl) as [HR0 ->]. simpl length in Hv.
    assert (HR : forall z, r_lhs r = z -> z = R) by congruence. clear HR0.
    assert (Hk : k <> sr). { intros ->. unfold rs in Hr. rewrite augment_start in Hr. injection Hr as <-. discriminate. }
    inversion Hv as [E2 E3|? ? ? ? ? ? ? ? ? E2 E3|g0 k1 q1 b1 r1 A k' r' t Hv1 Hr1 HA Hr' HA' Hf E2 E3]; subst; [congruence|].
    assert (r' = r) by congruence. subst r'. rewrite (HR _ eq_refl) in HA.
    destruct (valid_split rs sr _ _ Hv1) as (r2 & d & Hr2 & _ & E4 & _); [unfold rs, sr; rewrite augment_start; eauto|]. cbn [i_rule i_pos] in *.
    assert (r2 = r1) by congruence. subst r2. apply nth_error_split in HA as (l3 & l4 & E5 & <-).
    rewrite E5, firstn_app, Nat.sub_diag, firstn_O, app_nil_r, firstn_all in E4.
    destruct (rs_rule _ _ Hr1) as [Hin1|[-> ->]].
    - destruct (Hl r1 _ _ _ Hin1 E5) as (_ & H2 & _). destruct (H2 eq_refl) as (_ & _ & a' & ->). right. exists (d ++ a'). rewrite E4, app_assoc. reflexivity.
    - left. cbn [r_rhs] in E5. destruct l3 as [|? [|? ?]]; try discriminate. cbn [length] in Hv1.
      pose proof (start_items _ _ _ Hfresh _ _ Hv1 eq_refl) as Hg. exact Hg.
  Qed.
  Lemma opens_R A l : opens rules A l -> l <> [] /\ (forall l', l = l' ++ [Sep] -> A = R).
  Proof.
    induction 1 as [r j Hr Hj|r j B l Hr HB Ho [IH1 IH2]].
    - split; [intros E0; apply (f_equal (@length _)) in E0; rewrite firstn_length in E0; simpl in E0; lia|].
      intros l' E0. assert (E1 : r_rhs r = l' ++ Sep :: skipn j (r_rhs r)) by (rewrite <- (firstn_skipn j (r_rhs r)) at 1; rewrite E0, <- app_assoc; reflexivity).
      destruct (Hl r _ _ _ Hr E1) as (_ & _ & H3). auto.
    - split; [intros E0; apply app_eq_nil in E0; tauto|]. intros l' E0.
      destruct (exists_last IH1) as (l1 & Y & ->). rewrite app_assoc in E0. apply app_inj_tail in E0 as [_ ->].
      assert (B = R) by eauto. subst B. apply nth_error_split in HB as (a & b & E1 & _). destruct (Hl r _ _ _ Hr E1) as (_ & H2 & _). apply H2. auto.
  Qed.
  Lemma list_steady : steady rules rs sr.
  Proof.
    intros g u A l X _ Ho Hw HX. exfalso. destruct (opens_R A l Ho) as [Hne HR].
    destruct (exists_last Hne) as (l1 & Y & ->). apply wants_err in Hw. rewrite !app_assoc in Hw. destruct Hw as [Hw|[g' Hw]]; [apply app_eq_nil in Hw as [_ Hw]; discriminate|].
    apply app_inj_tail in Hw as [_ ->]. rewrite (HR l1 eq_refl) in HX. destruct HX as (k & p & la & r & Hv & Hr & Hp). rewrite app_assoc in Hv.
    pose proof (end_R _ _ Hv _ eq_refl r Hr) as H. cbn [i_pos] in H. congruence.
  Qed.
End Steady.

Theorem C106_steady : forall N T E (nix : N -> nat) (tix : T -> nat) e (s : syntax N T E) P ws R sep,
  api_syntax nix tix s -> makes e s P ws -> recovers_in_list (gram s) R sep -> steady (gram s) (p_rules (pr_tab P)) (length (gram s)).
Proof.
  intros N T E nix tix e s P ws R sep Ha Hmk Hl. destruct (makes_made nix tix e s P ws Ha Hmk) as [ss Hm]. rewrite (can_rules _ _ _ (md_can _ _ _ _ Hm)).
  eapply list_steady; eauto. exact (md_fresh _ _ _ _ Hm).
Qed.
Print Assumptions C106_steady.

Lemma stmt_recovers {N T E} base X R semi (g1 g2 g3 : reducer N T E) : statement_rules base X R semi ->
  recovers_in_list (gram (stmt_list base X R semi g1 g2 g3)) R semi /\ one_error_rule (gram (stmt_list base X R semi g1 g2 g3)).
Proof.
  intros Hb. rewrite (ParseStmt.gram_eq base X R semi g1 g2 g3). split.
  - intros r a Y b Hr E0. apply in_app_or in Hr as [Hr|Hr].
    + apply in_map_iff in Hr as (c & <- & Hc). apply Hb in Hc as (H1 & H2 & H3 & H4 & H5).
      assert (HY : In Y (r_rhs (cr_rule c))) by (rewrite E0; apply in_or_app; simpl; auto).
      split; [intros ->; tauto|]. split; intros ->; tauto.
    + destruct Hb as [HX _]. destruct Hr as [<-|[<-|[<-|[]]]]; cbn [r_rhs r_lhs] in *;
        destruct a as [|? [|? [|? [|? ?]]]]; try discriminate; injection E0; intros; subst; (split; [|split]); intros EY; try discriminate; try (injection EY; intros; congruence); auto.
      * split; auto. split; auto. exists [NT X]. auto.
      * split; auto. split; auto. exists [TM TErr]. auto.
  - exists (length base + 1). intros k r Hk HX. destruct (Nat.lt_ge_cases k (length base)) as [Hlt|Hge].
    + exfalso. rewrite nth_error_app1 in Hk by (rewrite map_length; auto). apply nth_error_In in Hk. apply in_map_iff in Hk as (c & <- & Hc). apply Hb in Hc. tauto.
    + rewrite nth_error_app2, map_length in Hk by (rewrite map_length; auto). remember (k - length base) as j eqn:Ej.
      destruct j as [|[|[|j]]]; [injection Hk as <-; simpl in HX; intuition discriminate|lia|injection Hk as <-; simpl in HX; intuition discriminate|destruct j; discriminate].
Qed.
Lemma sep_recovers {N T E} base X R sep (g1 g2 g3 : reducer N T E) : statement_rules base X R sep ->
  recovers_in_list (gram (rec_list base X R sep g1 g2 g3)) R sep /\ one_error_rule (gram (rec_list base X R sep g1 g2 g3)).
Proof.
  intros Hb. rewrite (ParseSepRec.gram_eq base X R sep g1 g2 g3). split.
  - intros r a Y b Hr E0. apply in_app_or in Hr as [Hr|Hr].
    + apply in_map_iff in Hr as (c & <- & Hc). apply Hb in Hc as (H1 & H2 & H3 & H4 & H5).
      assert (HY : In Y (r_rhs (cr_rule c))) by (rewrite E0; apply in_or_app; simpl; auto).
      split; [intros ->; tauto|]. split; intros ->; tauto.
    + destruct Hb as [HX _]. destruct Hr as [<-|[<-|[<-|[]]]]; cbn [r_rhs r_lhs] in *;
        destruct a as [|? [|? [|? [|? ?]]]]; try discriminate; injection E0; intros; subst; (split; [|split]); intros EY; try discriminate; try (injection EY; intros; congruence); auto.
      * split; auto. split; auto. exists [NT X]. auto.
      * split; auto. split; auto. exists [TM TErr]. auto.
  - exists (length base + 1). intros k r Hk HX. destruct (Nat.lt_ge_cases k (length base)) as [Hlt|Hge].
    + exfalso. rewrite nth_error_app1 in Hk by (rewrite map_length; auto). apply nth_error_In in Hk. apply in_map_iff in Hk as (c & <- & Hc). apply Hb in Hc. tauto.
    + rewrite nth_error_app2, map_length in Hk by (rewrite map_length; auto). remember (k - length base) as j eqn:Ej.
      destruct j as [|[|[|j]]]; [injection Hk as <-; simpl in HX; intuition discriminate|lia|injection Hk as <-; simpl in HX; intuition discriminate|destruct j; discriminate].
Qed.

(** C106: whatever the rules of the items and the input, a list in which wrong items are reported is parsed with a number of
    detected errors and in a number of turns that are linear in the length of the input; the constant depends on the grammar only *)
Theorem C106_statements : forall N T E (nix : N -> nat) (tix : T -> nat) e base X R semi (g1 g2 g3 : reducer N T E) P,
  let s := stmt_list base X R semi g1 g2 g3 in
  api_syntax nix tix s -> statement_rules base X R semi -> makes e s P [] -> productive (gram s) ->
  (forall fuel w, length (parse_errors tix P fuel w) <= 2 * length w + 2) /\
  exists C, forall N' T' E' (nix' : N' -> nat) (tix' : T' -> nat) e' base' (g1' g2' g3' : reducer N' T' E') P',
    let s' := stmt_list base' X R semi g1' g2' g3' in
    map cr_rule base' = map cr_rule base -> api_syntax nix' tix' s' -> makes e' s' P' [] ->
    forall w, parse tix' P' (C * (length w + 1)) w <> OutOfFuel.
Proof.
  intros N T E nix tix e base X R semi g1 g2 g3 P s Ha Hb Hmk Hp. split.
  - destruct (stmt_recovers base X R semi g1 g2 g3 Hb) as [Hl Hone].
    pose proof (ParseStmt.stmt_apart base X R semi g1 g2 g3 Hb) as Hadj. pose proof (C106_steady _ _ _ nix tix e s P [] R semi Ha Hmk Hl) as Hst.
    intros fuel w. eapply C73_errors_linear; eauto.
  - destruct (burst_const nix tix e s P Ha Hmk Hp) as (ss & M & C & Hm & HB). exists (3 * (M + C + 1) + C + 1).
    intros N' T' E' nix' tix' e' base' g1' g2' g3' P' s' Eb Ha' Hmk' w Hf.
    assert (Eg : gram s' = gram s) by (unfold s', s, gram, stmt_list; cbn [sx_rules]; rewrite !map_app, Eb; reflexivity).
    assert (Hb' : statement_rules base' X R semi).
    { split; [apply Hb|]. intros r Hr. assert (Hin : In (cr_rule r) (map cr_rule base)) by (rewrite <- Eb; apply in_map; auto). apply in_map_iff in Hin as (r0 & <- & Hr0). apply Hb. auto. }
    destruct (makes_made nix' tix' e' s' P' [] Ha' Hmk') as [ss' Hm'].
    assert (ss' = ss) by (pose proof (md_ss _ _ _ _ Hm) as H1; pose proof (md_ss _ _ _ _ Hm') as H2; rewrite Eg in H2; congruence). subst ss'.
    assert (Hf' : loop (parse_step tix' P') ((3 * (M + C + 1) + C + 1) * (length w + 1)) (ps_init P' w) = OutOfFuel).
    { unfold parse, parse_full in Hf. destruct (loop _ _ _); [discriminate|discriminate|reflexivity]. }
    assert (Hp' : productive (gram s')) by (rewrite Eg; exact Hp).
    change (sx_start s) with (sx_start s') in HB. rewrite <- Eg in HB.
    destruct (ParseStmt.cls_init tix' base' X R semi g1' g2' g3' P' ss w Hm') as (V & HV & HVle).
    destruct (amort tix' s' P' [] ss w Hm' (ParseStmt.cls tix' base' X R semi g1' g2' g3' P' ss w) (ParseStmt.cls_inv tix' base' X R semi g1' g2' g3' P' ss w)
      (ParseStmt.cls_shift_one tix' base' X R semi g1' g2' g3' Hb' P' ss w Hm' Hp') (ParseStmt.cls_reduce_one tix' base' X R semi g1' g2' g3' Hb' P' ss w Hm')
      (ParseStmt.cls_error_one tix' base' X R semi g1' g2' g3' Hb' P' ss w Hm') M C HB _ _ _ _ _ _ HV Hf') as (j & g' & H1 & H2).
    apply HB in H1. simpl length in H1. clear - H1 H2 HVle. assert (V * (M + C + 1) <= (3 * length w + 1) * (M + C + 1)) by (apply Nat.mul_le_mono_r; auto). nia.
Qed.
Print Assumptions C106_statements.
Theorem C106_lists : forall N T E (nix : N -> nat) (tix : T -> nat) e base X R sep (g1 g2 g3 : reducer N T E) P,
  let s := rec_list base X R sep g1 g2 g3 in
  api_syntax nix tix s -> statement_rules base X R sep -> makes e s P [] -> productive (gram s) ->
  (forall fuel w, length (parse_errors tix P fuel w) <= 2 * length w + 2) /\
  exists C, forall N' T' E' (nix' : N' -> nat) (tix' : T' -> nat) e' base' (g1' g2' g3' : reducer N' T' E') P',
    let s' := rec_list base' X R sep g1' g2' g3' in
    map cr_rule base' = map cr_rule base -> api_syntax nix' tix' s' -> makes e' s' P' [] ->
    forall w, parse tix' P' (C * (length w + 1)) w <> OutOfFuel.
Proof.
  intros N T E nix tix e base X R sep g1 g2 g3 P s Ha Hb Hmk Hp. split.
  - destruct (sep_recovers base X R sep g1 g2 g3 Hb) as [Hl Hone].
    pose proof (ParseSepRec.list_apart base X R sep g1 g2 g3 Hb) as Hadj. pose proof (C106_steady _ _ _ nix tix e s P [] R sep Ha Hmk Hl) as Hst.
    intros fuel w. eapply C73_errors_linear; eauto.
  - destruct (burst_const nix tix e s P Ha Hmk Hp) as (ss & M & C & Hm & HB). exists (3 * (M + C + 1) + C + 1).
    intros N' T' E' nix' tix' e' base' g1' g2' g3' P' s' Eb Ha' Hmk' w Hf.
    assert (Eg : gram s' = gram s) by (unfold s', s, gram, rec_list; cbn [sx_rules]; rewrite !map_app, Eb; reflexivity).
    assert (Hb' : statement_rules base' X R sep).
    { split; [apply Hb|]. intros r Hr. assert (Hin : In (cr_rule r) (map cr_rule base)) by (rewrite <- Eb; apply in_map; auto). apply in_map_iff in Hin as (r0 & <- & Hr0). apply Hb. auto. }
    destruct (makes_made nix' tix' e' s' P' [] Ha' Hmk') as [ss' Hm'].
    assert (ss' = ss) by (pose proof (md_ss _ _ _ _ Hm) as H1; pose proof (md_ss _ _ _ _ Hm') as H2; rewrite Eg in H2; congruence). subst ss'.
    assert (Hf' : loop (parse_step tix' P') ((3 * (M + C + 1) + C + 1) * (length w + 1)) (ps_init P' w) = OutOfFuel).
    { unfold parse, parse_full in Hf. destruct (loop _ _ _); [discriminate|discriminate|reflexivity]. }
    assert (Hp' : productive (gram s')) by (rewrite Eg; exact Hp).
    change (sx_start s) with (sx_start s') in HB. rewrite <- Eg in HB.
    destruct (ParseSepRec.cls_init tix' base' X R sep g1' g2' g3' P' ss w Hm') as (V & HV & HVle).
    destruct (amort tix' s' P' [] ss w Hm' (ParseSepRec.cls tix' base' X R sep g1' g2' g3' P' ss w) (ParseSepRec.cls_inv tix' base' X R sep g1' g2' g3' P' ss w)
      (ParseSepRec.cls_shift_one tix' base' X R sep g1' g2' g3' Hb' P' ss w Hm' Hp') (ParseSepRec.cls_reduce_one tix' base' X R sep g1' g2' g3' Hb' P' ss w Hm')
      (ParseSepRec.cls_error_one tix' base' X R sep g1' g2' g3' Hb' P' ss w Hm') M C HB _ _ _ _ _ _ HV Hf') as (j & g' & H1 & H2).
    apply HB in H1. simpl length in H1. clear - H1 H2 HVle. assert (V * (M + C + 1) <= (3 * length w + 1) * (M + C + 1)) by (apply Nat.mul_le_mono_r; auto). nia.
Qed.
Print Assumptions C106_lists.

(** lists written with left recursion *)
Theorem C106_left_lists : forall N T E (nix : N -> nat) (tix : T -> nat) e base X R sep (g1 g2 g3 g4 : reducer N T E) P,
  let s := left_rec base X R sep g1 g2 g3 g4 in
  api_syntax nix tix s -> statement_rules base X R sep -> makes e s P [] -> productive (gram s) ->
  (forall fuel w, length (parse_errors tix P fuel w) <= 3 * length w + 3) /\
  exists C, forall N' T' E' (nix' : N' -> nat) (tix' : T' -> nat) e' base' (g1' g2' g3' g4' : reducer N' T' E') P',
    let s' := left_rec base' X R sep g1' g2' g3' g4' in
    map cr_rule base' = map cr_rule base -> api_syntax nix' tix' s' -> makes e' s' P' [] ->
    forall w, parse tix' P' (C * (length w + 1)) w <> OutOfFuel.
Proof.
  intros N T E nix tix e base X R sep g1 g2 g3 g4 P s Ha Hb Hmk Hp.
  split.
  - intros fuel w. destruct (makes_made nix tix e s P [] Ha Hmk) as [ss Hm].
    assert (Hi : exists V, ParseLeftRec.cls tix base X R sep g1 g2 g3 g4 P ss w (ps_init P w) [] [] 0 V /\ V <= 3 * length w + 2) by (eapply ParseLeftRec.cls_init; eauto).
    destruct Hi as (V & HV & HVle). unfold parse_errors. apply Nat.le_trans with (V + 1); [|lia].
    eapply (count tix s P [] ss w Hm (ParseLeftRec.cls tix base X R sep g1 g2 g3 g4 P ss w)); [..|exact HV].
    + intros; eapply ParseLeftRec.cls_inv; eauto.
    + intros; eapply ParseLeftRec.cls_shift_one; eauto.
    + intros; eapply ParseLeftRec.cls_reduce_one; eauto.
    + intros; eapply ParseLeftRec.cls_error_one; eauto.
  - destruct (burst_const nix tix e s P Ha Hmk Hp) as (ss & M & C & Hm & HB). exists (3 * (M + C + 1) + C + 1).
    intros N' T' E' nix' tix' e' base' g1' g2' g3' g4' P' s' Eb Ha' Hmk' w Hf.
    assert (Eg : gram s' = gram s) by (unfold s', s, gram, left_rec; cbn [sx_rules]; rewrite !map_app, Eb; reflexivity).
    assert (Hb' : statement_rules base' X R sep).
    { split; [apply Hb|]. intros r Hr. assert (Hin : In (cr_rule r) (map cr_rule base)) by (rewrite <- Eb; apply in_map; auto). apply in_map_iff in Hin as (r0 & <- & Hr0). apply Hb. auto. }
    destruct (makes_made nix' tix' e' s' P' [] Ha' Hmk') as [ss' Hm'].
    assert (ss' = ss) by (pose proof (md_ss _ _ _ _ Hm) as H1; pose proof (md_ss _ _ _ _ Hm') as H2; rewrite Eg in H2; congruence). subst ss'.
    assert (Hf' : loop (parse_step tix' P') ((3 * (M + C + 1) + C + 1) * (length w + 1)) (ps_init P' w) = OutOfFuel).
    { unfold parse, parse_full in Hf. destruct (loop _ _ _); [discriminate|discriminate|reflexivity]. }
    assert (Hp' : productive (gram s')) by (rewrite Eg; exact Hp).
    change (sx_start s) with (sx_start s') in HB. rewrite <- Eg in HB.
    assert (Hi : exists V, ParseLeftRec.cls tix' base' X R sep g1' g2' g3' g4' P' ss w (ps_init P' w) [] [] 0 V /\ V <= 3 * length w + 2) by (eapply ParseLeftRec.cls_init; eauto).
    destruct Hi as (V & HV & HVle).
    assert (Hj : exists j g', above (gram s') (sx_start s') ss (la_at tix' w 0) [] j [] g' /\ (3 * (M + C + 1) + C + 1) * (length w + 1) <= j + M * length g' + V * (M + C + 1)).
    { eapply (amort tix' s' P' [] ss w Hm' (ParseLeftRec.cls tix' base' X R sep g1' g2' g3' g4' P' ss w)); [..|exact HB|exact HV|exact Hf'].
      + intros; eapply ParseLeftRec.cls_inv; eauto.
      + intros; eapply ParseLeftRec.cls_shift_one; eauto.
      + intros; eapply ParseLeftRec.cls_reduce_one; eauto.
      + intros; eapply ParseLeftRec.cls_error_one; eauto. }
    destruct Hj as (j & g' & H1 & H2). apply HB in H1. simpl length in H1. clear - H1 H2 HVle. assert (V * (M + C + 1) <= (3 * length w + 2) * (M + C + 1)) by (apply Nat.mul_le_mono_r; auto). nia.
Qed.
Print Assumptions C106_left_lists.

(** n ; n + ; n n n ; ; + ; n ; ( ; ( n ) ;  with five wrong statements, and the same list with separators *)
Example C106_example : (api_syntax no_vals self st_syntax /\ statement_rules st_base 0 1 2 /\ makes env0 st_syntax P_st [] /\ productive (gram st_syntax) /\
    recovers_in_list (gram st_syntax) 1 2 /\ length (parse_errors self P_st 200 w_st) = 9) /\
  (api_syntax no_vals self sr_syntax /\ makes env0 sr_syntax P_sr [] /\ productive (gram sr_syntax) /\
    recovers_in_list (gram sr_syntax) 1 2 /\ length (parse_errors self P_sr 200 w_sr) = 9) /\
  (api_syntax no_vals self lr_syntax /\ makes env0 lr_syntax P_lr [] /\ productive (gram lr_syntax) /\ length (parse_errors self P_lr 200 w_lr) = 9).
Proof.
  split; [|split].
  - split; [apply st_api|]. split; [apply st_rules|]. split; [apply st_makes|]. split; [apply st_productive|]. split; [apply stmt_recovers, st_rules|vm_compute; reflexivity].
  - split; [raw_rules|]. split; [apply sr_makes|]. split; [apply (prod_check_sound _ 4); reflexivity|]. split; [apply sep_recovers, st_rules|vm_compute; reflexivity].
  - split; [raw_rules|]. split; [apply lr_makes|]. split; [apply (prod_check_sound _ 4); reflexivity|vm_compute; reflexivity].
Qed.
