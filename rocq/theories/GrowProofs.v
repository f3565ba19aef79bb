(** * Growing a grammar: no conflicts (proofs) *)
From Coq Require Import List Arith Lia Bool.
From Verif Require Import Lib Grammar LrModel LrSpec LrSets LrNew LrTop ParseModel Trees ParseSpec ParseInv ParseComplete GramFacts ParseTop RuleMap LoopSpec NestSpec GrowSpec.
Import ListNotations.

Lemma firstl_incl rs rs' l t : incl rs rs' -> firstl rs l t -> firstl rs' l t.
Proof.
  intros Hi. induction 1 as [t l|r l t Hr H IH|X l t Hd H IH]; [constructor|constructor; auto|]. apply fl_skip; auto. apply (der_incl rs rs' Hi). auto.
Qed.
Lemma firstl_tm rs t l u : firstl rs (TM t :: l) u -> u = t.
Proof. intros H. inversion H; subst; auto. match goal with Hx : der _ (TM _) [] |- _ => inversion Hx end. Qed.
Lemma term_eq_dec (a b : term) : {a = b} + {a <> b}.
Proof. repeat decide equality. Qed.
Lemma aug_cases rules D z k r : nth_error (augment rules D z) k = Some r -> (k < length rules /\ nth_error rules k = Some r) \/ (k = length rules /\ r = mk_rule z [NT D]).
Proof.
  intros H. destruct (Nat.eq_dec k (length rules)) as [->|Hk]; [right; rewrite augment_start in H; split; congruence|]. left. rewrite augment_old in H by auto. split; auto. apply nth_error_Some. congruence.
Qed.
Lemma goto_many rs sr g k la r p : valid rs sr g (mk_item k 0 la) -> nth_error rs k = Some r -> p <= length (r_rhs r) -> valid rs sr (g ++ firstn p (r_rhs r)) (mk_item k p la).
Proof.
  intros Hv Hr. induction p as [|p IH]; intros Hp; [cbn; rewrite app_nil_r; auto|]. destruct (nth_error (r_rhs r) p) as [X|] eqn:EX; [|apply nth_error_None in EX; lia].
  assert (E : firstn (S p) (r_rhs r) = firstn p (r_rhs r) ++ [X]).
  { clear - EX. revert p EX. induction (r_rhs r) as [|Y l IHl]; intros [|p] E; try discriminate; cbn in *; [congruence|]. f_equal. auto. }
  rewrite E, app_assoc. eapply valid_goto; eauto. apply IH. lia.
Qed.
Lemma reach_cases rules l l' : rewr rules l l' -> forall B, In (NT B) l' -> In (NT B) l \/ exists r, In r rules /\ In (NT B) (r_rhs r) .
Proof.
  induction 1 as [l|l1 r l2 l' Hr H IH]; intros B HB; auto. destruct (IH B HB) as [HI|HI]; auto. rewrite !in_app_iff in HI. rewrite in_app_iff. cbn. destruct HI as [HI|[HI|HI]]; eauto.
Qed.

(** ** Each part of a grammar without conflicts has none *)
Section Part.
  Variables (rules : list rule) (st ss D z : nat).
  Hypothesis Hss : ~ In ss (nonterminals rules).
  Hypothesis Hz : ~ In z (nonterminals rules).
  Hypothesis Heoi : no_eoi rules.
  Hypothesis Hprod : productive rules.
  Hypothesis Hst : In st (nonterminals rules).
  Let G0 := augment rules st ss.
  Let GD := augment rules D z.
  Let n := length rules.

  (** a string at which [B] is wanted, and a terminal that can follow it there *)
  Definition place (g : list sym) (B : nat) (b : term) : Prop :=
    exists k p la r, valid G0 n g (mk_item k p la) /\ nth_error G0 k = Some r /\ nth_error (r_rhs r) p = Some (NT B) /\ firsts G0 (skipn (S p) (r_rhs r) ++ [TM la]) b.
  Lemma place_next g B b k r p C : place g B b -> nth_error rules k = Some r -> r_lhs r = B -> nth_error (r_rhs r) p = Some (NT C) -> exists g' b', place g' C b'.
  Proof.
    intros (k0 & p0 & la & r0 & Hv & Hr0 & Hp0 & Hb) Hk Hl Hp. assert (Hin : In r rules) by (eapply nth_error_In; eauto).
    assert (Hkn : k < n) by (apply nth_error_Some; congruence). assert (Hk' : nth_error G0 k = Some r) by (unfold G0; rewrite augment_old; auto; unfold n in Hkn; lia).
    assert (Hpl : p <= length (r_rhs r)). { enough (p < length (r_rhs r)) by lia. apply nth_error_Some. congruence. }
    pose proof (valid_closure G0 n g k0 p0 la r0 B k r b Hv Hr0 Hp0 Hk' Hl Hb) as Hc. pose proof (goto_many _ _ _ _ _ _ p Hc Hk' Hpl) as Hg.
    destruct (ok_ders rules ss (skipn (S p) (r_rhs r))) as [w Hw].
    { pose proof (prod_ok rules ss Hss r Hprod Hin) as HF. rewrite <- (firstn_skipn (S p) (r_rhs r)) in HF. apply Forall_app in HF. tauto. }
    exists (g ++ firstn p (r_rhs r)), (fst_of w b). exists k, p, b, r. split; auto. split; auto. split; auto.
    assert (Hw' : ders G0 (skipn (S p) (r_rhs r) ++ [TM b]) (w ++ [b])). { apply ders_app; [apply (der_incl rules G0); [apply aug_incl|auto]|]. apply ders_one. constructor. }
    apply (proj2 (der_rewr G0)) in Hw'. destruct w as [|t w]; cbn [app map fst_of] in *; [exists []|exists (map TM (w ++ [b]))]; auto.
  Qed.
  Lemma reach_place l l' : rewr rules l l' -> (forall B, In (NT B) l -> exists g b, place g B b) -> forall B, In (NT B) l' -> exists g b, place g B b.
  Proof.
    induction 1 as [l|l1 r l2 l' Hr H IH]; intros Hl; auto. apply IH. intros B HB. rewrite !in_app_iff in HB. destruct HB as [HB|[HB|HB]].
    - apply Hl. rewrite in_app_iff. auto.
    - destruct (Hl (r_lhs r)) as (g & b & Hp); [rewrite in_app_iff; cbn; auto|]. apply In_nth_error in Hr as [k Hk]. apply In_nth_error in HB as [p Hp']. eapply place_next; eauto.
    - apply Hl. rewrite in_app_iff. cbn. auto.
  Qed.
  Lemma reachable_place : reachable rules st D -> exists g b, place g D b.
  Proof.
    intros (l1 & l2 & H). eapply reach_place; [exact H| |rewrite in_app_iff; cbn; auto]. intros B [E|[]]. injection E as <-.
    exists [], TEoi. exists n, 0, TEoi, (mk_rule ss [NT st]). split; [constructor|]. split; [apply augment_start|]. split; auto. exists []. constructor.
  Qed.
  Lemma reachable_in : reachable rules st D -> In D (nonterminals rules).
  Proof.
    intros (l1 & l2 & H). destruct (reach_cases rules _ _ H D) as [[E|[]]|(r & Hr & HD)]; [rewrite in_app_iff; cbn; auto|congruence|]. apply nonterminals_spec. exists r. auto.
  Qed.

  Section At.
    Variables (g : list sym) (b : term).
    Hypothesis HD : In D (nonterminals rules).
    Hypothesis Hpl : place g D b.
    Definition up (la : term) : term := if term_eq_dec la TEoi then b else la.
    Lemma up_eoi : up TEoi = b.
    Proof. unfold up. destruct (term_eq_dec TEoi TEoi); congruence. Qed.
    Lemma up_other t : t <> TEoi -> up t = t.
    Proof. unfold up. destruct (term_eq_dec t TEoi); congruence. Qed.
    Lemma firstl_GD l t : firstl GD l t -> ~ In (NT z) l -> firstl G0 l t.
    Proof.
      intros H Hn. apply (firstl_incl rules G0); [apply aug_incl|]. revert Hn. induction H as [t l|r l t Hr H IH|X l t Hd H IH]; intros Hn; [constructor| |]; cbn in Hn.
      - assert (In r rules) by (apply (aug_In rules D z); [exact Hr|intros E; apply Hn; left; congruence]). constructor; auto. apply IH. apply (ss_rhs rules z Hz); auto.
      - apply fl_skip; [apply (proj1 (der_aug0 rules D z Hz)); auto|auto].
    Qed.
    Lemma part_valid d it : valid GD n d it -> i_rule it <> n -> valid G0 n (g ++ d) (mk_item (i_rule it) (i_pos it) (up (i_la it))).
    Proof.
      induction 1 as [|d k p la r X H IH Hr Hp|d k p la r B k' r' t H IH Hr Hp Hr' HB Ht]; cbn [i_rule i_pos i_la] in *; intros Hk; [congruence| |].
      - rewrite app_assoc. eapply valid_goto; [apply IH; auto| |exact Hp]. unfold G0. rewrite augment_old by auto. unfold GD in Hr. rewrite augment_old in Hr; auto.
      - destruct (aug_cases _ _ _ _ _ Hr') as [[Hl' E']|[E' _]]; [|destruct (Hk E')]. assert (Hr0 : nth_error G0 k' = Some r') by (unfold G0; rewrite augment_old; auto).
        apply firsts_firstl in Ht. destruct (aug_cases _ _ _ _ _ Hr) as [[Hl E]|[E Er]].
        + assert (Hkn : k <> n) by (unfold n; lia). specialize (IH Hkn). eapply valid_closure; [exact IH|unfold G0; rewrite augment_old by auto; exact E|exact Hp|exact Hr0|exact HB|].
          apply firsts_firstl. apply firstl_app in Ht. apply firstl_app. assert (Hrin : In r rules) by (eapply nth_error_In; eauto).
          assert (Hsk : forall X, In X (skipn (S p) (r_rhs r)) -> In X (r_rhs r)). { intros X HX. rewrite <- (firstn_skipn (S p) (r_rhs r)). apply in_or_app. auto. }
          assert (Hnz : ~ In (NT z) (skipn (S p) (r_rhs r))) by (intros HI; eapply (ss_rhs rules z Hz); eauto).
          destruct Ht as [Ht|[Ht1 Ht2]].
          * left. rewrite up_other; [apply firstl_GD; auto|]. intros ->. pose proof (firstl_eoi rules D z Heoi _ _ Ht eq_refl) as HI. eapply Heoi; eauto.
          * right. apply firstl_tm in Ht2. subst t. split; [|constructor]. intros X HX. apply (der_incl rules G0); [apply aug_incl|]. apply (proj1 (der_aug0 rules D z Hz)); auto. intros ->. auto.
        + subst k r. cbn in Hp. destruct p as [|p]; [|destruct p; discriminate]. injection Hp as <-. pose proof (start_items rules D z Hz _ _ H eq_refl) as Ed. cbn in Ed. subst d. rewrite app_nil_r.
          pose proof (start_item_la rules D z Hz _ _ H eq_refl) as El. cbn in El. subst la. cbn [skipn r_rhs app] in Ht. apply firstl_tm in Ht. subst t. rewrite up_eoi.
          destruct Hpl as (k0 & p0 & la & r0 & Hv & Hr0' & Hp0 & Hb). eapply valid_closure; eauto.
    Qed.
    Lemma part_free0 : conflict_free G0 n -> conflict_free GD n.
    Proof.
      intros cf d k t Hk (r & Hr & Hv). assert (Hc : complete G0 n (g ++ d) k (up t)).
      { exists r. split; [|apply (part_valid _ _ Hv); auto]. unfold G0. rewrite augment_old by auto. unfold GD in Hr. rewrite augment_old in Hr; auto. }
      destruct (cf _ _ _ Hk Hc) as [A B]. split.
      - intros (k2 & q & la & r2 & Hv2 & Hr2 & Hq). destruct (aug_cases _ _ _ _ _ Hr2) as [[Hl E]|[E Er]].
        + assert (Ht : t <> TEoi). { intros ->. eapply Heoi; [eapply nth_error_In; exact E|eapply nth_error_In; exact Hq]. } rewrite up_other in A by auto. apply A. exists k2, q, (up la), r2. split; [apply (part_valid _ _ Hv2); cbn; unfold n; lia|]. split; auto.
          unfold G0. rewrite augment_old; auto. lia.
        + subst r2. cbn in Hq. destruct q as [|q]; [discriminate|destruct q; discriminate].
      - intros k' Hk' (r' & Hr' & Hv'). apply B; auto. exists r'. split; [|apply (part_valid _ _ Hv'); auto]. unfold G0. rewrite augment_old by auto. unfold GD in Hr'. rewrite augment_old in Hr'; auto.
    Qed.
  End At.
  Lemma part_free : reachable rules st D -> conflict_free G0 n -> conflict_free GD n.
  Proof. intros HR. destruct (reachable_place HR) as (g & b & Hp). apply (part_free0 g b); auto. Qed.
End Part.

Lemma last_split {X} (x : X) l l' : ~ In x l -> ~ In x l' -> forall g g', g ++ x :: l = g' ++ x :: l' -> l = l'.
Proof.
  intros Hl Hl'. induction g as [|y g IH]; intros [|y' g'] E; cbn [app] in E.
  - congruence.
  - exfalso. apply Hl. injection E as _ ->. rewrite in_app_iff. cbn. auto.
  - exfalso. apply Hl'. injection E as _ <-. rewrite in_app_iff. cbn. auto.
  - injection E as _ E. eauto.
Qed.
Lemma dl_nt rs st key l : delimited rs st key l -> forall q D, nth_error l q = Some (NT D) ->
  exists e, nth_error l (S q) = Some (TM (TSym e)) /\ reachable rs st D /\ ~ cyclic rs D /\ e <> key /\ ~ has_terminal rs (TSym e).
Proof.
  induction 1 as [|t l Ht Hl IH|D e l HR Hc He Hf Hl IH]; intros q B Hq; [destruct q; discriminate| |].
  - destruct q as [|q]; [discriminate|]. apply IH. auto.
  - destruct q as [|[|q]]; [|discriminate|]; cbn in Hq; [injection Hq as <-; exists e; auto|]. apply IH in Hq. exact Hq.
Qed.
Lemma dl_key rs st key l : delimited rs st key l -> ~ In (TM (TSym key)) l.
Proof. induction 1 as [|t l Ht Hl IH|D e l HR Hc He Hf Hl IH]; cbn; [auto| |]; intuition congruence. Qed.
Lemma nth_firstn {X} (l : list X) p q : q < p -> nth_error (firstn p l) q = nth_error l q.
Proof. revert p q. induction l as [|y l IH]; intros [|p] [|q] H; cbn; auto; try lia. apply IH. lia. Qed.

Section Grow.
  Variables (rules : list rule) (st A key : nat) (body : list sym) (c : term) (ss z : nat).
  Hypothesis Heoi : no_eoi rules.
  Hypothesis Hst : In st (nonterminals rules).
  Hypothesis HA : firstl rules [NT A] c.
  Hypothesis Hkey : ~ has_terminal rules (TSym key).
  Hypothesis Hbody : delimited rules st key body.
  Let R0 := key_rule A key body.
  Let H := rules ++ [R0].
  Let n := length rules.
  Let rs := augment H st ss.
  Let sr := length H.
  Let G D := augment rules D z.
  Hypothesis Hss : ~ In ss (nonterminals H).
  Hypothesis Hz : ~ In z (nonterminals rules).
  Notation t0 := (TSym key).

  Definition osym (Y : sym) : Prop := match Y with TM t => has_terminal rules t | NT B => In B (nonterminals rules) end.
  Lemma sr_n : sr = S n.
  Proof. unfold sr, H. rewrite app_length. cbn. unfold n. lia. Qed.
  Lemma rs_nth k r : nth_error rs k = Some r -> (k < n /\ nth_error rules k = Some r) \/ (k = n /\ r = R0) \/ (k = sr /\ r = mk_rule ss [NT st]).
  Proof.
    intros E. apply aug_cases in E as [[Hl E]|E]; auto. unfold H in E, Hl. destruct (Nat.lt_ge_cases k n) as [Hk|Hk].
    - rewrite nth_error_app1 in E by auto. auto.
    - rewrite app_length in Hl. cbn in Hl. assert (k = n) by (unfold n in *; lia). subst k. rewrite nth_error_app2 in E by auto. unfold n in E. rewrite Nat.sub_diag in E. injection E as <-. auto.
  Qed.
  Lemma rs_in r : In r rs -> In r rules \/ r = R0 \/ r = mk_rule ss [NT st].
  Proof. unfold rs, augment, H. rewrite !in_app_iff. cbn. intuition auto. Qed.
  Lemma old_ss B : In B (nonterminals rules) -> B <> ss.
  Proof. intros HB ->. apply Hss. apply nonterminals_spec in HB as (r & Hr & HB). apply nonterminals_spec. exists r. split; auto. unfold H. apply in_or_app. auto. Qed.
  Lemma rhs_osym r : In r rules -> Forall osym (r_rhs r).
  Proof. intros Hr. apply Forall_forall. intros [B|t] HY; cbn; [apply nonterminals_spec; exists r; auto|exists r; auto]. Qed.
  Lemma osym_key : ~ osym (TM t0).
  Proof. exact Hkey. Qed.
  Lemma osyms_key l : Forall osym l -> ~ In (TM t0) l.
  Proof. intros HF HI. rewrite Forall_forall in HF. apply (osym_key (HF _ HI)). Qed.
  Lemma old_eoi : ~ has_terminal rules TEoi.
  Proof. intros (r & Hr & HI). eapply Heoi; eauto. Qed.

  (** derivations of strings without the new token *)
  Lemma der_old : (forall X w, der rs X w -> osym X -> ~ In t0 w -> der rules X w) /\ (forall l w, ders rs l w -> Forall osym l -> ~ In t0 w -> ders rules l w).
  Proof.
    apply der_ders_ind.
    - constructor.
    - intros r w Hr Hd IH HX Hw. apply rs_in in Hr as [Hr|[->| ->]].
      + constructor; auto. apply IH; auto. apply rhs_osym; auto.
      + exfalso. cbn in Hd. inversion Hd as [|X l u v Hx Hl]; subst. inversion Hx; subst. apply Hw. cbn. auto.
      + exfalso. cbn in HX. apply (old_ss ss HX). auto.
    - constructor.
    - intros X l u v _ IH1 _ IH2 HF Hw. inversion HF; subst. rewrite in_app_iff in Hw. constructor; auto.
  Qed.
  Lemma HA_app l : firstl rules (NT A :: l) c.
  Proof. change (NT A :: l) with ([NT A] ++ l). apply firstl_app. auto. Qed.
  Lemma firstl_term l t : firstl rules l t -> In (TM t) l \/ has_terminal rules t.
  Proof. induction 1 as [t l|r l t Hr Hf IH|X l t Hd Hf IH]; cbn; auto; [|tauto]. right. destruct IH as [IH|IH]; auto. exists r. auto. Qed.
  Lemma c_old : has_terminal rules c.
  Proof. destruct (firstl_term _ _ HA) as [[E|[]]|Hc]; [discriminate|auto]. Qed.
  Lemma firstl_old l t : firstl rs l t -> Forall osym l -> (has_terminal rules t /\ firstl rules l t) \/ (t = t0 /\ firstl rules l c).
  Proof.
    induction 1 as [t l|r l t Hr Hf IH|X l t Hd Hf IH]; intros HF; inversion HF as [|Y l' HY Hl]; subst.
    - left. split; [exact HY|constructor].
    - apply rs_in in Hr as [Hr|[->| ->]].
      + destruct (IH (rhs_osym r Hr)) as [[T F]|[-> F]]; [left|right]; (split; [auto|constructor; auto]).
      + right. apply firstl_tm in Hf. split; auto. apply HA_app.
      + exfalso. apply (old_ss ss HY). auto.
    - assert (Hd' : der rules X []) by (apply (proj1 der_old); auto). destruct (IH Hl) as [[T F]|[-> F]]; [left|right]; (split; [auto|apply fl_skip; auto]).
  Qed.
  (** where a nonterminal is wanted, its rules can start *)
  Hypothesis Hprod : productive rules.
  Lemma wants_open D d B k r : wants (G D) n d (NT B) -> nth_error rules k = Some r -> r_lhs r = B -> nth_error (G D) k = Some r /\ exists la, valid (G D) n d (mk_item k 0 la).
  Proof.
    intros (k0 & p & la & r0 & Hv & Hr0 & Hp) Hk Hl. assert (Hkn : k < n) by (apply nth_error_Some; congruence).
    assert (Hk2 : nth_error (G D) k = Some r) by (unfold G; rewrite augment_old; auto; unfold n in Hkn; lia). split; auto.
    destruct (ok_ders rules z (skipn (S p) (r_rhs r0))) as [w Hw].
    { apply aug_cases in Hr0 as [[_ Hr0]|[_ ->]].
      - pose proof (prod_ok rules z Hz r0 Hprod (nth_error_In _ _ Hr0)) as HF. rewrite <- (firstn_skipn (S p) (r_rhs r0)) in HF. apply Forall_app in HF. tauto.
      - cbn in Hp. destruct p as [|p]; [constructor|destruct p; discriminate]. }
    exists (fst_of w la). eapply valid_closure; eauto.
    assert (Hw' : ders (G D) (skipn (S p) (r_rhs r0) ++ [TM la]) (w ++ [la])). { apply ders_app; [apply (der_incl rules (G D)); [apply aug_incl|auto]|]. apply ders_one. constructor. }
    apply (proj2 (der_rewr (G D))) in Hw'. destruct w as [|t w]; cbn [app map fst_of] in *; [exists []|exists (map TM (w ++ [la]))]; auto.
  Qed.

  (** ** Reductions before the terminal [c] is read *)
  Definition red (D : nat) (d d1 : list sym) : Prop :=
    exists k r d0, nth_error rules k = Some r /\ d = d0 ++ r_rhs r /\ d1 = d0 ++ [NT (r_lhs r)] /\ complete (G D) n d k c.
  Inductive reds (D : nat) : nat -> list sym -> list sym -> Prop :=
  | rd_0 d : reds D 0 d d
  | rd_S m d d1 d2 : red D d d1 -> reds D m d1 d2 -> reds D (S m) d d2.
  Lemma reds_app D m d d1 : reds D m d d1 -> forall m' d2, reds D m' d1 d2 -> reds D (m + m') d d2.
  Proof. induction 1 as [d|m d d1 d2 Hr H1 IH]; intros m' d3 H3; auto. cbn. econstructor; eauto. Qed.
  Lemma red_not_shift D d d1 : conflict_free (G D) n -> red D d d1 -> ~ wants (G D) n d (TM c).
  Proof. intros cf (k & r & d0 & Hk & _ & _ & Hc). apply (cf _ k _); auto. enough (k < n) by lia. apply nth_error_Some. congruence. Qed.
  Lemma red_det D d d1 d2 : conflict_free (G D) n -> red D d d1 -> red D d d2 -> d1 = d2.
  Proof.
    intros cf (k & r & d0 & Hk & E & -> & Hc) (k' & r' & d0' & Hk' & E' & -> & Hc'). assert (Hn : k <> n) by (enough (k < n) by lia; apply nth_error_Some; congruence). assert (Hn' : k' <> n) by (enough (k' < n) by lia; apply nth_error_Some; congruence).
    destruct (cf _ _ _ Hn Hc) as [_ Hu]. rewrite (Hu _ Hn' Hc') in Hk'. assert (r' = r) by congruence. subst r'. rewrite E in E'. apply app_inv_tail in E'. congruence.
  Qed.
  Lemma reds_len D m d a : conflict_free (G D) n -> reds D m d a -> wants (G D) n a (TM c) -> forall m' b, reds D m' d b -> wants (G D) n b (TM c) -> m = m'.
  Proof.
    intros cf. induction 1 as [d|m d d1 d2 Hr H1 IH]; intros Hw m' b Hb Hwb; inversion Hb as [|m2 e e1 e2 Hr2 H2]; subst; auto.
    - exfalso. eapply red_not_shift; eauto.
    - exfalso. eapply red_not_shift; eauto.
    - rewrite (red_det _ _ _ _ cf Hr2 Hr) in H2. f_equal. eauto.
  Qed.
  (** symbols that may be empty are made by reductions *)
  Lemma null_reds D : (forall X w, der rules X w -> w = [] -> exists m, forall d k p la r, valid (G D) n d (mk_item k p la) -> nth_error (G D) k = Some r -> nth_error (r_rhs r) p = Some X ->
      firstl (G D) (skipn (S p) (r_rhs r) ++ [TM la]) c -> reds D m d (d ++ [X])) /\
    (forall l w, ders rules l w -> w = [] -> exists m, forall d k p r, valid (G D) n d (mk_item k p c) -> nth_error (G D) k = Some r -> skipn p (r_rhs r) = l ->
      reds D m d (d ++ l) /\ complete (G D) n (d ++ l) k c).
  Proof.
    apply der_ders_ind.
    - discriminate.
    - intros r w Hr _ IH ->. destruct (IH eq_refl) as [m Hm]. exists (m + 1). intros d k p la r0 Hv Hr0 Hp Hf. apply In_nth_error in Hr as [k' Hk'].
      assert (Hkn : k' < n) by (apply nth_error_Some; congruence). assert (Hk2 : nth_error (G D) k' = Some r) by (unfold G; rewrite augment_old; auto; unfold n in Hkn; lia).
      assert (Hv' : valid (G D) n d (mk_item k' 0 c)) by (eapply valid_closure; eauto; apply firsts_firstl; auto). destruct (Hm d k' 0 r Hv' Hk2 eq_refl) as [H1 H2].
      eapply reds_app; [exact H1|]. econstructor; [|constructor]. exists k', r, d. auto.
    - intros _. exists 0. intros d k p r Hv Hr E. rewrite app_nil_r. split; [constructor|]. exists r. split; auto.
      destruct (valid_split _ _ _ _ Hv) as (r1 & _ & E1 & E2 & _); [exists (mk_rule z [NT D]); apply augment_start|]. cbn [i_rule i_pos] in *. assert (r1 = r) by congruence. subst r1.
      assert (p = length (r_rhs r)); [|congruence]. apply (f_equal (@length sym)) in E. rewrite skipn_length in E. cbn in E. lia.
    - intros X l u v HX IH1 Hl IH2 E. apply app_eq_nil in E as [-> ->]. destruct (IH1 eq_refl) as [m1 Hm1]. destruct (IH2 eq_refl) as [m2 Hm2]. exists (m1 + m2). intros d k p r Hv Hr E.
      assert (Hp : nth_error (r_rhs r) p = Some X).
      { rewrite <- (firstn_skipn p (r_rhs r)). destruct (valid_split _ _ _ _ Hv) as (r1 & _ & E1 & E2 & _); [exists (mk_rule z [NT D]); apply augment_start|]. cbn [i_rule i_pos] in *. assert (r1 = r) by congruence. subst r1.
        rewrite nth_error_app2 by (rewrite firstn_length; lia). rewrite firstn_length, E. replace (p - Nat.min p (length (r_rhs r))) with 0 by lia. auto. }
      rewrite (skipn_nth_cons _ _ _ Hp) in E. assert (E0 : skipn (S p) (r_rhs r) = l) by congruence. clear E. rename E0 into E.
      assert (Hr1 : reds D m1 d (d ++ [X])).
      { apply (Hm1 d k p c r); auto. apply firstl_app. right. split; [|constructor]. intros Y HY. rewrite E in HY. apply (der_incl rules (G D)); [apply aug_incl|]. eapply ders_null_In; eauto. }
      pose proof (valid_goto _ _ _ _ _ _ _ _ Hv Hr Hp) as Hg. destruct (Hm2 (d ++ [X]) k (S p) r Hg Hr E) as [A1 A2]. rewrite <- app_assoc in A1, A2. split; auto. eapply reds_app; eauto.
  Qed.
  (** the reductions before [c] is read: their number depends only on how [c] is the first terminal of the string *)
  Lemma at_item D d k p la r l X : valid (G D) n d (mk_item k p la) -> nth_error (G D) k = Some r -> skipn p (r_rhs r) = X :: l -> nth_error (r_rhs r) p = Some X /\ skipn (S p) (r_rhs r) = l.
  Proof.
    intros Hv Hr E. assert (Hp : nth_error (r_rhs r) p = Some X).
    { rewrite <- (firstn_skipn p (r_rhs r)). destruct (valid_split _ _ _ _ Hv) as (r1 & _ & E1 & E2 & _); [exists (mk_rule z [NT D]); apply augment_start|]. cbn [i_rule i_pos] in *. assert (r1 = r) by congruence. subst r1.
      rewrite nth_error_app2 by (rewrite firstn_length; lia). rewrite firstn_length, E. replace (p - Nat.min p (length (r_rhs r))) with 0 by lia. auto. }
    split; auto. rewrite (skipn_nth_cons _ _ _ Hp) in E. congruence.
  Qed.
  Lemma skip_reds D X : der rules X [] -> exists m, forall d k p la r l l', valid (G D) n d (mk_item k p la) -> nth_error (G D) k = Some r -> skipn p (r_rhs r) = X :: l ++ l' -> firstl rules l c ->
    reds D m d (d ++ [X]) /\ valid (G D) n (d ++ [X]) (mk_item k (S p) la) /\ skipn (S p) (r_rhs r) = l ++ l'.
  Proof.
    intros HX. destruct (proj1 (null_reds D) _ _ HX eq_refl) as [m Hm]. exists m. intros d k p la r l l' Hv Hr E Hf. destruct (at_item _ _ _ _ _ _ _ _ Hv Hr E) as [Hp E2]. split; [|split; [eapply valid_goto; eauto|auto]].
    apply (Hm d k p la r Hv Hr Hp). rewrite E2. apply firstl_app. left. apply firstl_app. left. apply (firstl_incl rules (G D)); [apply aug_incl|auto].
  Qed.
  Lemma c_reds D l t : firstl rules l t -> t = c -> exists m, forall d k p la r l', valid (G D) n d (mk_item k p la) -> nth_error (G D) k = Some r -> skipn p (r_rhs r) = l ++ l' ->
    exists d2, reds D m d d2 /\ wants (G D) n d2 (TM c).
  Proof.
    induction 1 as [t l|r l t Hr Hf IH|X l t Hd Hf IH]; intros ->.
    - exists 0. intros d k p la r l' Hv Hr E. destruct (at_item _ _ _ _ _ _ _ _ Hv Hr E) as [Hp _]. exists d. split; [constructor|]. exists k, p, la, r. auto.
    - destruct (IH eq_refl) as [m Hm]. exists m. intros d k p la r0 l' Hv Hr0 E. destruct (at_item _ _ _ _ _ _ _ _ Hv Hr0 E) as [Hp _]. apply In_nth_error in Hr as [k' Hk'].
      destruct (wants_open D d (r_lhs r) k' r) as (Hk2 & la' & Hv'); auto; [exists k, p, la, r0; auto|]. apply (Hm d k' 0 la' r []); auto. rewrite app_nil_r. auto.
    - destruct (IH eq_refl) as [m Hm]. destruct (skip_reds D X Hd) as [m1 Hm1]. exists (m1 + m). intros d k p la r l' Hv Hr E. destruct (Hm1 d k p la r l l' Hv Hr E Hf) as (A1 & A2 & A3).
      destruct (Hm _ _ _ _ _ _ A2 Hr A3) as (d2 & B1 & B2). exists d2. split; auto. eapply reds_app; eauto.
  Qed.
  Lemma key_reds D l t : firstl rs l t -> t = t0 -> Forall osym l -> exists m, forall d k p la r l', valid (G D) n d (mk_item k p la) -> nth_error (G D) k = Some r -> skipn p (r_rhs r) = l ++ l' ->
    exists d2, reds D m d d2 /\ wants (G D) n d2 (NT A).
  Proof.
    induction 1 as [t l|r l t Hr Hf IH|X l t Hd Hf IH]; intros -> HF; inversion HF as [|Y l0 HY Hl]; subst.
    - exfalso. apply (osym_key HY).
    - apply rs_in in Hr as [Hr|[->| ->]]; [| |exfalso; apply (old_ss ss HY); auto].
      + destruct (IH eq_refl (rhs_osym r Hr)) as [m Hm]. exists m. intros d k p la r0 l' Hv Hr0 E. destruct (at_item _ _ _ _ _ _ _ _ Hv Hr0 E) as [Hp _]. apply In_nth_error in Hr as [k' Hk'].
        destruct (wants_open D d (r_lhs r) k' r) as (Hk2 & la' & Hv'); auto; [exists k, p, la, r0; auto|]. apply (Hm d k' 0 la' r []); auto. rewrite app_nil_r. auto.
      + exists 0. intros d k p la r0 l' Hv Hr0 E. destruct (at_item _ _ _ _ _ _ _ _ Hv Hr0 E) as [Hp _]. exists d. split; [constructor|]. exists k, p, la, r0. auto.
    - assert (HX : der rules X []) by (apply (proj1 der_old); auto). assert (Hc : firstl rules l c). { destruct (firstl_old _ _ Hf Hl) as [[T _]|[_ F]]; [contradiction|auto]. }
      destruct (IH eq_refl Hl) as [m Hm]. destruct (skip_reds D X HX) as [m1 Hm1]. exists (m1 + m). intros d k p la r l' Hv Hr E. destruct (Hm1 d k p la r l l' Hv Hr E Hc) as (A1 & A2 & A3).
      destruct (Hm _ _ _ _ _ _ A2 Hr A3) as (d2 & B1 & B2). exists d2. split; auto. eapply reds_app; eauto.
  Qed.
  (** reductions that lead to a place where [A] is wanted *)
  Definition leads (D : nat) (d : list sym) : Prop := exists m d2, reds D m d d2 /\ wants (G D) n d2 (NT A).
  Lemma no_cycle D d d1 : conflict_free (G D) n -> wants (G D) n d (NT A) -> red D d d1 -> leads D d1 -> False.
  Proof.
    intros cf Hw Hr (m & d2 & Hrs & Hw2). destruct (c_reds D [NT A] c HA eq_refl) as [m0 Hm0].
    assert (HH : forall d, wants (G D) n d (NT A) -> exists d', reds D m0 d d' /\ wants (G D) n d' (TM c)).
    { intros d' (k & p & la & r & Hv & Hr' & Hp). apply (Hm0 d' k p la r (skipn (S p) (r_rhs r)) Hv Hr'). apply skipn_nth_cons. auto. }
    destruct (HH d Hw) as (a & A1 & A2). destruct (HH d2 Hw2) as (b & B1 & B2). pose proof (reds_app _ _ _ _ (rd_S D m d d1 d2 Hr Hrs) _ _ B1) as B. pose proof (reds_len _ _ _ _ cf A1 A2 _ _ B B2). lia.
  Qed.

  (** ** The items of the grown grammar *)
  (** [g] ends within a [D] that has read [d] and is followed by [e]: the whole input, or a part of the new construct *)
  Definition inside (g : list sym) (D : nat) (e : term) (d : list sym) : Prop :=
    Forall osym d /\ ((D = st /\ e = TEoi /\ g = d) \/
      exists g0 p, g = g0 ++ TM t0 :: firstn p body ++ d /\ nth_error body p = Some (NT D) /\ nth_error body (S p) = Some (TM e)).
  Definition rel (e la la' : term) : Prop := (la = t0 /\ la' = c) \/ (la = e /\ la' = TEoi) \/ (has_terminal rules la /\ la' = la).
  Definition kmap (k : nat) : nat := if Nat.eq_dec k sr then n else k.
  Definition old_item (g : list sym) (it : item) : Prop :=
    exists D e d la', inside g D e d /\ i_rule it <> n /\ (i_rule it = sr -> D = st) /\ valid (G D) n d (mk_item (kmap (i_rule it)) (i_pos it) la') /\ rel e (i_la it) la' /\
      (i_la it = t0 -> i_rule it <> sr /\ exists d0 r, nth_error rules (i_rule it) = Some r /\ d = d0 ++ firstn (i_pos it) (r_rhs r) /\ leads D (d0 ++ [NT (r_lhs r)])).
  Definition key_item (g : list sym) (it : item) : Prop := i_rule it = n /\ i_pos it = 0 /\ exists D e d, inside g D e d /\ wants (G D) n d (NT A).
  Definition body_item (g : list sym) (it : item) : Prop := i_rule it = n /\ exists q g0, i_pos it = S q /\ q <= length body /\ g = g0 ++ TM t0 :: firstn q body.

  Lemma fresh_e p D e : nth_error body p = Some (NT D) -> nth_error body (S p) = Some (TM e) -> reachable rules st D /\ ~ cyclic rules D /\ e <> t0 /\ ~ has_terminal rules e /\ e <> TEoi.
  Proof. intros H1 H2. destruct (dl_nt _ _ _ _ Hbody _ _ H1) as (e' & E & A1 & A2 & A3 & A4). rewrite H2 in E. injection E as ->. repeat split; auto; congruence. Qed.
  Lemma inside_e g D e d : inside g D e d -> reachable rules st D /\ e <> t0 /\ ~ has_terminal rules e.
  Proof.
    intros (_ & [(-> & -> & _)|(g0 & p & _ & H1 & H2)]); [split; [apply reach_start|]; split; [discriminate|apply old_eoi]|]. destruct (fresh_e _ _ _ H1 H2) as (A1 & _ & A3 & A4 & _). auto.
  Qed.
  Lemma rel_fun g D e d la a b : inside g D e d -> rel e la a -> rel e la b -> a = b.
  Proof.
    intros Hi. apply inside_e in Hi as (_ & H1 & H2). intros [[-> ->]|[[-> ->]|[T ->]]] [[E ->]|[[E ->]|[T' ->]]]; auto; try congruence; exfalso; subst; auto.
  Qed.
  Lemma osym_snoc d r p X : Forall osym d -> In r rules -> nth_error (r_rhs r) p = Some X -> Forall osym (d ++ [X]).
  Proof. intros H1 H2 H3. apply Forall_app. split; auto. constructor; auto. pose proof (rhs_osym r H2) as HF. rewrite Forall_forall in HF. apply HF. eapply nth_error_In; eauto. Qed.
  Lemma kmap_old k : k < n -> kmap k = k.
  Proof. intros Hk. unfold kmap. destruct (Nat.eq_dec k sr) as [E|]; auto. rewrite sr_n in E. lia. Qed.
  Lemma kmap_sr : kmap sr = n.
  Proof. unfold kmap. destruct (Nat.eq_dec sr sr); congruence. Qed.
  Lemma G_nth k r D : nth_error rs k = Some r -> k <> n -> (k = sr -> D = st) -> exists r', nth_error (G D) (kmap k) = Some r' /\ r_rhs r' = r_rhs r /\ ((k < n /\ In r rules) \/ (k = sr /\ r = mk_rule ss [NT st])).
  Proof.
    intros Hr Hk HD. apply rs_nth in Hr as [[Hl Hr]|[[E _]|[-> ->]]]; [|congruence|].
    - exists r. rewrite (kmap_old k Hl). split; [unfold G; rewrite augment_old; auto; unfold n in Hl; lia|]. split; auto. left. split; auto. eapply nth_error_In; eauto.
    - exists (mk_rule z [NT D]). rewrite kmap_sr. split; [apply augment_start|]. split; [cbn; rewrite HD; auto|auto].
  Qed.
  Lemma inside_snoc g D e d X : inside g D e d -> osym X -> inside (g ++ [X]) D e (d ++ [X]).
  Proof.
    intros (HF & Hi) HX. split; [apply Forall_app; auto|]. destruct Hi as [(-> & -> & ->)|(g0 & p & -> & H1 & H2)]; [left; auto|right]. exists g0, p. split; auto. rewrite <- app_assoc. cbn. rewrite <- app_assoc. auto.
  Qed.
  Lemma firstn_snoc {Y} (l : list Y) p X : nth_error l p = Some X -> firstn (S p) l = firstn p l ++ [X].
  Proof. revert p. induction l as [|y l IH]; intros [|p] E; try discriminate; cbn in *; [congruence|]. f_equal. auto. Qed.
  Lemma body_nt q B : nth_error body q = Some (NT B) -> In B (nonterminals rules).
  Proof. intros Hq. destruct (dl_nt _ _ _ _ Hbody _ _ Hq) as (e & _ & HR & _). apply (reachable_in rules st B Hst HR). Qed.

  Lemma embed g it : valid rs sr g it -> old_item g it \/ key_item g it \/ body_item g it.
  Proof.
    induction 1 as [|g k p la r X Hv IH Hr Hp|g k p la r B k' r' t Hv IH Hr Hp Hr' HB Ht].
    - left. exists st, TEoi, [], TEoi. cbn. split; [split; auto|]. split; [rewrite sr_n; lia|]. split; auto. split; [rewrite kmap_sr; constructor|]. split; [right; left; auto|discriminate].
    - destruct IH as [(D & e & d & la' & Hi & Hk & HD & Hv' & Hrel & Hlead)|[(Ek & Ep & D & e & d & Hi & Hw)|(Ek & q & g0 & Ep & Hq & Eg)]]; cbn [i_rule i_pos i_la] in *.
      + left. destruct (G_nth k r D Hr Hk HD) as (r1 & Hr1 & E1 & Hc). exists D, e, (d ++ [X]), la'. cbn [i_rule i_pos i_la]. split; [|split; [auto|split; [auto|split; [|split; [auto|]]]]].
        * apply inside_snoc; auto. destruct Hc as [[_ Hin]|[_ ->]].
          -- pose proof (rhs_osym r Hin) as HF. rewrite Forall_forall in HF. apply HF. eapply nth_error_In; eauto.
          -- destruct p as [|p]; [|destruct p; discriminate]. injection Hp as <-. exact Hst.
        * eapply valid_goto; [exact Hv'|exact Hr1|]. rewrite E1. auto.
        * intros El. destruct (Hlead El) as (Hs & d0 & r2 & Hr2 & Ed & Hl2). split; auto. exists d0, r2. split; auto. split; auto. assert (r2 = r).
          { apply rs_nth in Hr as [[_ Hr]|[[E _]|[E _]]]; congruence. }
          subst r2. rewrite Ed, <- app_assoc. f_equal. symmetry. apply firstn_snoc. auto.
      + right. right. subst k p. apply rs_nth in Hr as [[Hl _]|[[_ ->]|[E _]]]; [lia| |rewrite sr_n in E; lia]. cbn in Hp. injection Hp as <-.
        split; auto. exists 0, g. cbn. repeat split; auto. lia.
      + right. right. subst k p. apply rs_nth in Hr as [[Hl _]|[[_ ->]|[E _]]]; [lia| |rewrite sr_n in E; lia]. cbn in Hp. split; auto. exists (S q), g0. cbn [i_pos]. split; auto.
        split; [enough (q < length body) by lia; apply nth_error_Some; congruence|]. rewrite (firstn_snoc _ _ _ Hp), Eg, <- app_assoc. auto.
    - assert (Hk' : r_lhs r' <> ss -> (k' < n /\ nth_error rules k' = Some r') \/ (k' = n /\ r' = R0)). { intros Hn. apply rs_nth in Hr' as [E|[E|[_ ->]]]; auto. cbn in Hn. congruence. }
      apply firsts_firstl in Ht.
      destruct IH as [(D & e & d & la' & Hi & Hk & HD & Hv' & Hrel & Hlead)|[(Ek & Ep & D & e & d & Hi & Hw)|(Ek & q & g0 & Ep & Hq & Eg)]]; cbn [i_rule i_pos i_la] in *.
      + destruct (G_nth k r D Hr Hk HD) as (r1 & Hr1 & E1 & Hc).
        assert (HBn : In B (nonterminals rules)). { destruct Hc as [[_ Hin]|[_ ->]]; [apply nonterminals_spec; exists r; split; auto; right; eapply nth_error_In; eauto|]. destruct p as [|p]; [|destruct p; discriminate]. injection Hp as <-. exact Hst. }
        destruct Hk' as [[Hl E]|[-> ->]]; [rewrite HB; apply old_ss; auto| |].
        * left. assert (HFs : Forall osym (skipn (S p) (r_rhs r))).
          { assert (HF : Forall osym (r_rhs r)) by (destruct Hc as [[_ Hin]|[_ ->]]; [apply rhs_osym; auto|repeat constructor; exact Hst]). rewrite <- (firstn_skipn (S p) (r_rhs r)) in HF. apply Forall_app in HF. tauto. }
          assert (Hg : valid (G D) n (d ++ [NT B]) (mk_item (kmap k) (S p) la')) by (eapply valid_goto; [exact Hv'|exact Hr1|rewrite E1; auto]).
          assert (Ht' : exists t', rel e t t' /\ firstl (G D) (skipn (S p) (r_rhs r) ++ [TM la']) t' /\ (t = t0 -> leads D (d ++ [NT B]))).
          { apply firstl_app in Ht as [Ht|[Ht1 Ht2]].
            - assert (HL : t = t0 -> leads D (d ++ [NT B])).
              { intros E0. destruct (key_reds D _ _ Ht E0 HFs) as [m Hm]. exists m. apply (Hm _ _ _ _ _ [] Hg Hr1). rewrite app_nil_r, E1. auto. }
              destruct (firstl_old _ _ Ht HFs) as [[T F]|[-> F]]; [exists t|exists c]; (split; [unfold rel; auto|]); (split; [apply firstl_app; left; apply (firstl_incl rules (G D)); [apply aug_incl|auto]|auto]).
            - apply firstl_tm in Ht2. subst t. assert (Hnull : forall X, In X (skipn (S p) (r_rhs r)) -> der rules X []) by (intros X HX; apply (proj1 der_old); auto; rewrite Forall_forall in HFs; auto).
              exists la'. split; auto. split; [apply firstl_app; right; split; [|constructor]; intros X HX; apply (der_incl rules (G D)); [apply aug_incl|auto]|].
              intros E0. destruct (Hlead E0) as (Hs & d0 & r2 & Hr2 & Ed & (m & d2 & Hrs & Hw2)). assert (Hrr : r2 = r) by (apply rs_nth in Hr as [[_ Hr]|[[E2 _]|[E2 _]]]; congruence). subst r2.
              assert (Hla : la' = c). { pose proof (inside_e _ _ _ _ Hi) as (_ & Hne & _). destruct Hrel as [[_ E2]|[[E2 _]|[T _]]]; [auto|congruence|]. subst la. contradiction. } subst la'.
              destruct (proj2 (null_reds D) _ _ (ders_all_null _ _ Hnull) eq_refl) as [m1 Hm1]. destruct (Hm1 _ _ _ _ Hg Hr1) as [B1 B2]; [rewrite E1; auto|].
              assert (Hkl : k < n) by (apply nth_error_Some; congruence). rewrite (kmap_old k Hkl) in *.
              assert (Hred : red D ((d ++ [NT B]) ++ skipn (S p) (r_rhs r)) (d0 ++ [NT (r_lhs r)])).
              { exists k, r, d0. split; auto. split; [|split; auto]. rewrite Ed, <- !app_assoc. f_equal. cbn [app]. rewrite <- (skipn_nth_cons _ _ _ Hp). apply firstn_skipn. }
              exists (m1 + S m), d2. split; auto. eapply reds_app; [exact B1|]. econstructor; eauto. }
          destruct Ht' as (t' & Hrel' & Hf & HL). exists D, e, d, t'. cbn [i_rule i_pos i_la]. split; auto. split; [lia|]. split; [rewrite sr_n; lia|].
          split; [|split; [auto|]]. 2:{ intros E0. split; [rewrite sr_n; lia|]. exists d, r'. split; auto. split; [cbn; rewrite app_nil_r; auto|]. rewrite HB. auto. }
          rewrite (kmap_old k' Hl). eapply valid_closure; [exact Hv'|exact Hr1|rewrite E1; exact Hp| |exact HB|rewrite E1; apply firsts_firstl; auto]. unfold G. rewrite augment_old; auto. unfold n in Hl. lia.
        * right. left. cbn in HB. subst B. repeat split; auto. exists D, e, d. split; auto. exists (kmap k), p, la', r1. split; auto. split; auto. rewrite E1. auto.
      + exfalso. subst k p. apply rs_nth in Hr as [[Hl _]|[[_ ->]|[E _]]]; [lia| |rewrite sr_n in E; lia]. discriminate.
      + subst k p. apply rs_nth in Hr as [[Hl _]|[[_ ->]|[E _]]]; [lia| |rewrite sr_n in E; lia]. cbn in Hp. pose proof (body_nt _ _ Hp) as HBn. destruct (dl_nt _ _ _ _ Hbody _ _ Hp) as (e & He & HR & _).
        assert (Hi : inside g B (TSym e) []). { split; [constructor|]. right. exists g0, q. rewrite app_nil_r. auto. }
        change (firstl rs (skipn (S q) body ++ [TM la]) t) in Ht. rewrite (skipn_nth_cons _ _ _ He) in Ht. cbn [app] in Ht. apply firstl_tm in Ht. subst t.
        destruct Hk' as [[Hl E]|[-> ->]]; [rewrite HB; apply old_ss; auto| |].
        * left. exists B, (TSym e), [], TEoi. cbn [i_rule i_pos i_la]. split; auto. split; [lia|]. split; [rewrite sr_n; lia|]. split; [|split; [right; left; auto|intros E0; injection E0 as ->; destruct (dl_nt _ _ _ _ Hbody _ _ Hp) as (e2 & He2 & _ & _ & Hne & _); congruence]]. rewrite (kmap_old k' Hl).
          eapply (valid_closure (G B) n [] n 0 TEoi (mk_rule z [NT B])); [constructor|apply augment_start|reflexivity| |exact HB|apply firsts_firstl; constructor]. unfold G. rewrite augment_old; auto. unfold n in Hl. lia.
        * right. left. cbn in HB. subst B. repeat split; auto. exists A, (TSym e), []. split; auto. exists n, 0, TEoi, (mk_rule z [NT A]). split; [constructor|]. split; [apply augment_start|auto].
  Qed.

  (** ** The place where a string ends is unique *)
  Lemma body_key l q : Forall osym l -> ~ In (TM t0) (firstn q body ++ l).
  Proof.
    intros HF. rewrite in_app_iff. intros [HI|HI]; [|apply (osyms_key _ HF HI)]. apply (dl_key _ _ _ _ Hbody). rewrite <- (firstn_skipn q body). apply in_or_app. auto.
  Qed.
  Lemma seg p q d D e : firstn q body = firstn p body ++ d -> q <= length body -> Forall osym d -> nth_error body p = Some (NT D) -> nth_error body (S p) = Some (TM e) -> (q = p /\ d = []) \/ (q = S p /\ d = [NT D]).
  Proof.
    intros E Hq HF H1 H2. destruct (fresh_e _ _ _ H1 H2) as (_ & _ & _ & He & _). assert (Hp : S p < length body) by (apply nth_error_Some; congruence).
    assert (El : q = p + length d). { apply (f_equal (@length sym)) in E. rewrite app_length, !firstn_length in E. lia. }
    assert (Hd : forall i, i < length d -> nth_error d i = nth_error body (p + i)).
    { intros i Hi. rewrite <- (nth_firstn body q) by lia. rewrite E. rewrite nth_error_app2 by (rewrite firstn_length; lia). f_equal. rewrite firstn_length. lia. }
    destruct d as [|X [|Y d]]; [left; cbn in El; split; auto; lia|right|].
    - specialize (Hd 0). cbn in Hd. rewrite Nat.add_0_r, H1 in Hd. split; [cbn in El; lia|]. specialize (Hd (le_n 1)). congruence.
    - exfalso. specialize (Hd 1). cbn [nth_error length] in Hd. replace (p + 1) with (S p) in Hd by lia. rewrite H2 in Hd. assert (Y = TM e) by (enough (Some Y = Some (TM e)) by congruence; apply Hd; lia). subst Y.
      rewrite Forall_forall in HF. apply He. apply (HF (TM e)). cbn. auto.
  Qed.
  Lemma inside_unique g D e d D' e' d' : inside g D e d -> inside g D' e' d' -> D' = D /\ e' = e /\ d' = d.
  Proof.
    intros [HF Hi] [HF' Hi']. destruct Hi as [(-> & -> & ->)|(g0 & p & -> & H1 & H2)], Hi' as [(-> & -> & E)|(g0' & p' & E & H1' & H2')]; auto.
    - exfalso. apply (osyms_key _ HF). rewrite E, in_app_iff. cbn. auto.
    - exfalso. apply (osyms_key _ HF'). rewrite <- E, in_app_iff. cbn. auto.
    - apply last_split in E; [|apply body_key; auto|apply body_key; auto].
      assert (Hp : S p < length body) by (apply nth_error_Some; congruence). assert (Hp' : S p' < length body) by (apply nth_error_Some; congruence).
      destruct (Nat.lt_trichotomy p p') as [Hl|[->|Hl]].
      + exfalso. assert (E2 : firstn p' body = firstn p body ++ firstn (p' - p) d).
        { apply (f_equal (firstn p')) in E. rewrite !firstn_app, !firstn_firstn in E. rewrite !firstn_length in E. replace (Nat.min p' p) with p in E by lia. rewrite Nat.min_id in E. replace (Nat.min p' (length body)) with p' in E by lia. rewrite Nat.sub_diag in E. cbn [firstn] in E. rewrite app_nil_r in E. rewrite <- E. f_equal. f_equal. lia. }
        assert (HF2 : Forall osym (firstn (p' - p) d)) by (rewrite <- (firstn_skipn (p' - p) d) in HF; apply Forall_app in HF; tauto).
        destruct (seg _ _ _ D e E2 ltac:(lia) HF2 H1 H2) as [[E3 _]|[E3 _]]; [lia|]. subst p'. congruence.
      + apply app_inv_head in E. subst d'. repeat split; congruence.
      + exfalso. symmetry in E. assert (E2 : firstn p body = firstn p' body ++ firstn (p - p') d').
        { apply (f_equal (firstn p)) in E. rewrite !firstn_app, !firstn_firstn in E. rewrite !firstn_length in E. replace (Nat.min p p') with p' in E by lia. rewrite Nat.min_id in E. replace (Nat.min p (length body)) with p in E by lia. rewrite Nat.sub_diag in E. cbn [firstn] in E. rewrite app_nil_r in E. rewrite <- E. f_equal. f_equal. lia. }
        assert (HF2 : Forall osym (firstn (p - p') d')) by (rewrite <- (firstn_skipn (p - p') d') in HF'; apply Forall_app in HF'; tauto).
        destruct (seg _ _ _ D' e' E2 ltac:(lia) HF2 H1' H2') as [[E3 _]|[E3 _]]; [lia|]. subst p. congruence.
  Qed.
  Lemma inside_body g D e d g0 q : inside g D e d -> g = g0 ++ TM t0 :: firstn q body -> q <= length body ->
    (exists p, nth_error body p = Some (NT D) /\ nth_error body (S p) = Some (TM e) /\ ((q = p /\ d = []) \/ (q = S p /\ d = [NT D]))).
  Proof.
    intros [HF Hi] E Hq. destruct Hi as [(-> & -> & ->)|(g1 & p & -> & H1 & H2)].
    - exfalso. apply (osyms_key _ HF). rewrite E, in_app_iff. cbn. auto.
    - exists p. split; auto. split; auto. apply last_split in E; [|apply body_key; auto|]. 2:{ pose proof (body_key [] q (Forall_nil _)) as Hk. rewrite app_nil_r in Hk. auto. }
      eapply seg; eauto.
  Qed.

  (** ** No conflicts *)
  Hypothesis cf : forall D, reachable rules st D -> conflict_free (G D) n.
  Lemma no_end D k : ~ cyclic rules D -> complete (G D) n [NT D] k TEoi -> k <> n -> False.
  Proof.
    intros Hcyc Hc Hk. apply Hcyc. apply (early_cyclic rules D z Hz Heoi). exists [NT D], k. split; auto. split; auto. exists (mk_rule z [NT D]). split; [apply augment_start|].
    apply (valid_goto (G D) n [] n 0 TEoi (mk_rule z [NT D])); [constructor|apply augment_start|reflexivity].
  Qed.
  Lemma grown_complete g k t : complete rs sr g k t -> k <> sr ->
    (k < n /\ exists D e d t', inside g D e d /\ complete (G D) n d k t' /\ rel e t t' /\ (t = t0 -> exists d1, red D d d1 /\ leads D d1)) \/ (k = n /\ exists g0, g = g0 ++ TM t0 :: body).
  Proof.
    intros (r & Hr & Hv) Hk. destruct (embed _ _ Hv) as [(D & e & d & la' & Hi & Hkn & HD & Hv' & Hrel & Hlead)|[(Ek & Ep & _)|(Ek & q & g0 & Ep & Hq & Eg)]]; cbn [i_rule i_pos i_la] in *.
    - left. destruct (G_nth k r D Hr Hkn HD) as (r1 & Hr1 & E1 & [[Hl _]|[E _]]); [|congruence]. split; auto. exists D, e, d, la'. split; auto.
      rewrite (kmap_old k Hl) in *. assert (Hcc : complete (G D) n d k la') by (exists r1; rewrite E1; auto). split; auto. split; auto. intros E0. destruct (Hlead E0) as (_ & d0 & r2 & Hr2 & Ed & HL).
      assert (r2 = r) by (apply rs_nth in Hr as [[_ Hr]|[[E2 _]|[E2 _]]]; congruence). subst r2. rewrite firstn_all in Ed. exists (d0 ++ [NT (r_lhs r)]). split; auto. exists k, r, d0. repeat split; auto.
      assert (la' = c); [|congruence]. pose proof (inside_e _ _ _ _ Hi) as (_ & Hne & _). subst t. destruct Hrel as [[_ E2]|[[E2 _]|[T _]]]; [auto|congruence|contradiction].
    - exfalso. subst k. apply rs_nth in Hr as [[Hl _]|[[_ ->]|[E _]]]; [lia|discriminate|congruence].
    - right. split; auto. subst k. apply rs_nth in Hr as [[Hl _]|[[_ ->]|[E _]]]; [lia| |congruence]. cbn in Ep. injection Ep as <-. exists g0. rewrite firstn_all in Eg. auto.
  Qed.
  Lemma old_full g D e d g0 : inside g D e d -> g = g0 ++ TM t0 :: body -> False.
  Proof.
    intros Hi E. rewrite <- (firstn_all body) in E. destruct (inside_body _ _ _ _ _ _ Hi E (le_n _)) as (p & H1 & H2 & [[E2 _]|[E2 _]]).
    - assert (p < length body) by (apply nth_error_Some; congruence). lia.
    - assert (S p < length body) by (apply nth_error_Some; congruence). lia.
  Qed.
  Lemma grow_free : conflict_free rs sr.
  Proof.
    intros g k t Hk Hc. destruct (grown_complete _ _ _ Hc Hk) as [(Hl & D & e & d & t' & Hi & Hc' & Hrel & Hlead)|(-> & g0 & Eg)].
    - pose proof (inside_e _ _ _ _ Hi) as (HR & He1 & He2). assert (Hkn : k <> n) by lia. destruct (cf D HR _ _ _ Hkn Hc') as [Hnw Hun]. split.
      + intros (k2 & q & la & r2 & Hv2 & Hr2 & Hq). destruct (embed _ _ Hv2) as [(D2 & e2 & d2 & la2 & Hi2 & Hkn2 & HD2 & Hv2' & _ & _)|[(Ek & Ep & D2 & e2 & d2 & Hi2 & Hw2)|(Ek & q2 & g2 & Ep & Hq2 & Eg)]]; cbn [i_rule i_pos i_la] in *.
        * destruct (inside_unique _ _ _ _ _ _ _ Hi Hi2) as (-> & -> & ->). destruct (G_nth k2 r2 D Hr2 Hkn2 HD2) as (r1 & Hr1 & E1 & [[Hl2 Hin]|[_ ->]]); [|destruct q as [|[|q]]; discriminate].
          assert (T : has_terminal rules t) by (exists r2; split; auto; eapply nth_error_In; eauto). destruct Hrel as [[-> ->]|[[-> ->]|[_ ->]]]; [exact (Hkey T)|exact (He2 T)|]. apply Hnw. exists (kmap k2), q, la2, r1. rewrite E1. auto.
        * destruct (inside_unique _ _ _ _ _ _ _ Hi Hi2) as (-> & -> & ->). subst k2 q. apply rs_nth in Hr2 as [[Hl2 _]|[[_ ->]|[E _]]]; [lia| |rewrite sr_n in E; lia]. cbn in Hq. injection Hq as <-.
          destruct (Hlead eq_refl) as (d1 & Hred & HL). exact (no_cycle D d d1 (cf D HR) Hw2 Hred HL).
        * subst k2 q. apply rs_nth in Hr2 as [[Hl2 _]|[[_ ->]|[E _]]]; [lia| |rewrite sr_n in E; lia]. cbn in Hq. destruct (inside_body _ _ _ _ _ _ Hi Eg Hq2) as (p & H1 & H2 & [[-> ->]|[-> ->]]); [congruence|].
          assert (t = e) by congruence. subst t. destruct (fresh_e _ _ _ H1 H2) as (_ & Hcy & _). destruct Hrel as [[E _]|[[_ ->]|[T _]]]; [congruence| |contradiction]. exact (no_end D k Hcy Hc' Hkn).
      + intros k2 Hk2 Hc2. destruct (grown_complete _ _ _ Hc2 Hk2) as [(Hl2 & D2 & e2 & d2 & t2 & Hi2 & Hc2' & Hrel2 & _)|(-> & g0 & Eg)]; [|exfalso; eapply old_full; eauto].
        destruct (inside_unique _ _ _ _ _ _ _ Hi Hi2) as (-> & -> & ->). rewrite (rel_fun _ _ _ _ _ _ _ Hi Hrel2 Hrel) in Hc2'. apply Hun; auto. lia.
    - split.
      + intros (k2 & q & la & r2 & Hv2 & Hr2 & Hq). destruct (embed _ _ Hv2) as [(D2 & e2 & d2 & la2 & Hi2 & _)|[(Ek & Ep & D2 & e2 & d2 & Hi2 & Hw2)|(Ek & q2 & g2 & Ep & Hq2 & Eg2)]]; cbn [i_rule i_pos i_la] in *; [eapply old_full; eauto..|].
        subst k2 q. apply rs_nth in Hr2 as [[Hl2 _]|[[_ ->]|[E _]]]; [lia| |rewrite sr_n in E; lia]. cbn in Hq. rewrite Eg in Eg2. rewrite <- (firstn_all body) in Eg2 at 1. pose proof (body_key [] (length body) (Forall_nil _)) as K1. pose proof (body_key [] q2 (Forall_nil _)) as K2. rewrite app_nil_r in K1, K2.
        apply last_split in Eg2; auto. apply (f_equal (@length sym)) in Eg2. rewrite !firstn_length in Eg2. assert (q2 < length body) by (apply nth_error_Some; congruence). lia.
      + intros k2 Hk2 Hc2. destruct (grown_complete _ _ _ Hc2 Hk2) as [(Hl2 & D2 & e2 & d2 & t2 & Hi2 & _)|(-> & _)]; auto. exfalso. eapply old_full; eauto.
  Qed.
End Grow.
