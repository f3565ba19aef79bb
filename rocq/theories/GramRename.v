(** * Renaming the symbols of a grammar *)
From Coq Require Import List Arith Lia Bool.
From Verif Require Import Lib Grammar LrModel LrSpec LrSets LrTop.
Import ListNotations.

Definition rterm (f : nat -> nat) (t : term) : term := match t with TSym s => TSym (f s) | TErr => TErr | TEoi => TEoi end.
Definition rsym (f h : nat -> nat) (X : sym) : sym := match X with NT n => NT (h n) | TM t => TM (rterm f t) end.
Definition rrule (f h : nat -> nat) (r : rule) : rule := mk_rule (h (r_lhs r)) (map (rsym f h) (r_rhs r)).
Definition ritem (f : nat -> nat) (it : item) : item := mk_item (i_rule it) (i_pos it) (rterm f (i_la it)).

Section Rename.
  Variables f h : nat -> nat.
  Hypothesis Hf : forall x y, f x = f y -> x = y.
  Hypothesis Hh : forall x y, h x = h y -> x = y.

  Lemma rterm_inj x y : rterm f x = rterm f y -> x = y.
  Proof. destruct x, y; simpl; try congruence. intros H. injection H as H. f_equal. auto. Qed.
  Lemma rsym_inj x y : rsym f h x = rsym f h y -> x = y.
  Proof. destruct x, y; simpl; try congruence; intros H; injection H as H; f_equal; auto. apply rterm_inj. auto. Qed.
  Lemma rsyms_inj x : forall y, map (rsym f h) x = map (rsym f h) y -> x = y.
  Proof. induction x as [|a x IH]; intros [|b y] H; simpl in H; try congruence. injection H as H1 H2. f_equal; auto. apply rsym_inj. auto. Qed.
  Lemma ritem_inj x y : ritem f x = ritem f y -> x = y.
  Proof. destruct x, y. unfold ritem. simpl. intros H. injection H as -> -> H. f_equal. apply rterm_inj. auto. Qed.

  Variables (rs : list rule) (sr : nat).
  Let rs' := map (rrule f h) rs.

  Lemma nth_ren k : nth_error rs' k = match nth_error rs k with Some r => Some (rrule f h r) | None => None end.
  Proof. unfold rs'. rewrite nth_error_map. reflexivity. Qed.
  Lemma nth_rsym l p : nth_error (map (rsym f h) l) p = match nth_error l p with Some X => Some (rsym f h X) | None => None end.
  Proof. rewrite nth_error_map. reflexivity. Qed.

  Lemma der_ren : (forall X w, der rs X w -> der rs' (rsym f h X) (map (rterm f) w)) /\
    (forall l w, ders rs l w -> ders rs' (map (rsym f h) l) (map (rterm f) w)).
  Proof.
    apply der_ders_ind.
    - intros t. constructor.
    - intros r w Hr _ IH. apply (der_rule rs' (rrule f h r)); auto. apply in_map. auto.
    - constructor.
    - intros X l u v _ IH1 _ IH2. simpl. rewrite map_app. constructor; auto.
  Qed.
  Lemma der_unren : (forall Y w', der rs' Y w' -> forall X, Y = rsym f h X -> exists w, w' = map (rterm f) w /\ der rs X w) /\
    (forall l' w', ders rs' l' w' -> forall l, l' = map (rsym f h) l -> exists w, w' = map (rterm f) w /\ ders rs l w).
  Proof.
    apply der_ders_ind.
    - intros t [n|u] E; simpl in E; [discriminate|]. injection E as ->. exists [u]. split; [reflexivity|constructor].
    - intros r' w Hr _ IH X E. unfold rs' in Hr. apply in_map_iff in Hr as (r & <- & Hr). destruct X as [n|u]; simpl in E; [|discriminate].
      injection E as E. apply Hh in E. subst n. destruct (IH (r_rhs r) eq_refl) as (w0 & -> & H). exists w0. split; auto. constructor; auto.
    - intros [|X l] E; [|discriminate]. exists []. split; [reflexivity|constructor].
    - intros Y l' u v _ IH1 _ IH2 [|X l] E; [discriminate|]. simpl in E. injection E as E1 E2.
      destruct (IH1 X E1) as (u0 & -> & H1). destruct (IH2 l E2) as (v0 & -> & H2). exists (u0 ++ v0). rewrite map_app. split; auto. constructor; auto.
  Qed.
  Lemma null_ren X : der rs' (rsym f h X) [] <-> der rs X [].
  Proof.
    split; intros H; [|apply (proj1 der_ren _ _ H)]. destruct (proj1 der_unren _ _ H X eq_refl) as (w & E & H'). destruct w; [auto|discriminate].
  Qed.

  Lemma firstl_ren l t : firstl rs l t -> firstl rs' (map (rsym f h) l) (rterm f t).
  Proof.
    induction 1 as [t l|r l t Hr _ IH|X l t HX _ IH].
    - constructor.
    - apply (fl_nt rs' (rrule f h r)); [apply in_map; auto|exact IH].
    - simpl. apply fl_skip; auto. apply null_ren. auto.
  Qed.
  Lemma firstl_unren l' t' : firstl rs' l' t' -> forall l, l' = map (rsym f h) l -> exists t, t' = rterm f t /\ firstl rs l t.
  Proof.
    induction 1 as [t l'|r l' t Hr _ IH|X l' t HX _ IH]; intros l E.
    - destruct l as [|[n|u] l]; try discriminate. injection E as -> E. exists u. split; auto. constructor.
    - destruct l as [|[n|u] l]; try discriminate. unfold rs' in Hr. apply in_map_iff in Hr as (r0 & <- & Hr). simpl in E. injection E as E1 E2.
      apply Hh in E1. subst n. destruct (IH (r_rhs r0) eq_refl) as (t0 & -> & H). exists t0. split; auto. apply (fl_nt rs r0); auto.
    - destruct l as [|Y l]; try discriminate. simpl in E. injection E as -> E. destruct (IH l E) as (t0 & -> & H). exists t0. split; auto. apply fl_skip; auto. apply null_ren. auto.
  Qed.
  Lemma firsts_ren l t : firsts rs l t -> firsts rs' (map (rsym f h) l) (rterm f t).
  Proof. rewrite !firsts_firstl. apply firstl_ren. Qed.
  Lemma firsts_unren l t' : firsts rs' (map (rsym f h) l) t' -> exists t, t' = rterm f t /\ firsts rs l t.
  Proof. rewrite firsts_firstl. intros H. destruct (firstl_unren _ _ H l eq_refl) as (t & E & H'). exists t. rewrite firsts_firstl. auto. Qed.

  Lemma follow_ren r p la : map (rsym f h) (skipn (S p) (r_rhs r) ++ [TM la]) = skipn (S p) (r_rhs (rrule f h r)) ++ [TM (rterm f la)].
  Proof. rewrite map_app. unfold rrule. cbn [r_rhs]. rewrite skipn_map. reflexivity. Qed.

  Lemma valid_ren g it : valid rs sr g it -> valid rs' sr (map (rsym f h) g) (ritem f it).
  Proof.
    induction 1 as [|g k p la r X _ IH Hr HX|g k p la r A k' r' t _ IH Hr HA Hr' E0 Ht].
    - constructor.
    - rewrite map_app. apply (valid_goto rs' sr _ k p (rterm f la) (rrule f h r)); auto; [rewrite nth_ren, Hr; auto|].
      unfold rrule. cbn [r_rhs]. rewrite nth_rsym, HX. auto.
    - apply (valid_closure rs' sr _ k p (rterm f la) (rrule f h r) (h A) k' (rrule f h r') (rterm f t)); auto.
      + rewrite nth_ren, Hr. auto.
      + unfold rrule. cbn [r_rhs]. rewrite nth_rsym, HA. auto.
      + rewrite nth_ren, Hr'. auto.
      + simpl. congruence.
      + rewrite <- follow_ren. apply firsts_ren. auto.
  Qed.
  Lemma valid_unren g' it' : valid rs' sr g' it' -> exists g it, g' = map (rsym f h) g /\ it' = ritem f it /\ valid rs sr g it.
  Proof.
    induction 1 as [|g' k p la' r' X' _ IH Hr HX|g' k p la' r' A' k' r1 t' _ IH Hr HA Hr1 E0 Ht].
    - exists [], (mk_item sr 0 TEoi). repeat split; constructor.
    - destruct IH as (g & [k0 p0 la] & -> & E & Hv). unfold ritem in E. simpl in E. injection E as -> -> ->.
      rewrite nth_ren in Hr. destruct (nth_error rs k0) as [r|] eqn:Er; [|discriminate]. injection Hr as <-. unfold rrule in HX. cbn [r_rhs] in HX.
      rewrite nth_rsym in HX. destruct (nth_error (r_rhs r) p0) as [X|] eqn:EX; [|discriminate]. injection HX as <-.
      exists (g ++ [X]), (mk_item k0 (S p0) la). rewrite map_app. split; auto. split; auto. eapply valid_goto; eauto.
    - destruct IH as (g & [k0 p0 la] & -> & E & Hv). unfold ritem in E. simpl in E. injection E as -> -> ->.
      rewrite nth_ren in Hr, Hr1. destruct (nth_error rs k0) as [r|] eqn:Er; [|discriminate]. injection Hr as <-.
      destruct (nth_error rs k') as [r2|] eqn:Er2; [|discriminate]. injection Hr1 as <-.
      rewrite <- follow_ren in Ht. destruct (firsts_unren _ _ Ht) as (t & -> & Ht').
      unfold rrule in HA. cbn [r_rhs] in HA. rewrite nth_rsym in HA. destruct (nth_error (r_rhs r) p0) as [[A|u]|] eqn:EA; try discriminate. injection HA as <-.
      simpl in E0. apply Hh in E0. exists g, (mk_item k' 0 t). split; auto. split; auto. eapply valid_closure; eauto.
  Qed.
  Lemma valid_ren_iff g it : valid rs' sr (map (rsym f h) g) (ritem f it) <-> valid rs sr g it.
  Proof.
    split; [|apply valid_ren]. intros H. destruct (valid_unren _ _ H) as (g0 & it0 & E1 & E2 & H'). apply rsyms_inj in E1. apply ritem_inj in E2. congruence.
  Qed.
  Lemma valid_image g it' : valid rs' sr (map (rsym f h) g) it' -> exists it, it' = ritem f it /\ valid rs sr g it.
  Proof. intros H. destruct (valid_unren _ _ H) as (g0 & it & E & -> & H'). apply rsyms_inj in E. subst g0. eauto. Qed.

  Lemma wants_ren g X : wants rs' sr (map (rsym f h) g) (rsym f h X) <-> wants rs sr g X.
  Proof.
    split.
    - intros (k & p & la' & r' & Hv & Hr & HX). destruct (valid_image _ _ Hv) as ([k0 p0 la] & E & Hv0). unfold ritem in E. simpl in E. injection E as -> -> ->.
      rewrite nth_ren in Hr. destruct (nth_error rs k0) as [r|] eqn:Er; [|discriminate]. injection Hr as <-. unfold rrule in HX. cbn [r_rhs] in HX.
      rewrite nth_rsym in HX. destruct (nth_error (r_rhs r) p0) as [Y|] eqn:EY; [|discriminate]. injection HX as HX. apply rsym_inj in HX. subst Y.
      exists k0, p0, la, r. auto.
    - intros (k & p & la & r & Hv & Hr & HX). exists k, p, (rterm f la), (rrule f h r). split; [apply (valid_ren _ _ Hv)|]. split; [rewrite nth_ren, Hr; auto|].
      unfold rrule. cbn [r_rhs]. rewrite nth_rsym, HX. auto.
  Qed.
  Lemma wants_image g X' : wants rs' sr (map (rsym f h) g) X' -> exists X, X' = rsym f h X.
  Proof.
    intros (k & p & la' & r' & Hv & Hr & HX). rewrite nth_ren in Hr. destruct (nth_error rs k) as [r|] eqn:Er; [|discriminate]. injection Hr as <-. unfold rrule in HX. cbn [r_rhs] in HX.
    rewrite nth_rsym in HX. destruct (nth_error (r_rhs r) p) as [Y|] eqn:EY; [|discriminate]. injection HX as <-. eauto.
  Qed.
  Lemma complete_ren g k t : complete rs' sr (map (rsym f h) g) k (rterm f t) <-> complete rs sr g k t.
  Proof.
    unfold complete. split.
    - intros (r' & Hr & Hv). rewrite nth_ren in Hr. destruct (nth_error rs k) as [r|] eqn:Er; [|discriminate]. injection Hr as <-.
      exists r. split; auto. apply valid_ren_iff. unfold rrule in Hv. cbn [r_rhs] in Hv. rewrite map_length in Hv. exact Hv.
    - intros (r & Hr & Hv). exists (rrule f h r). rewrite nth_ren, Hr. split; auto. unfold rrule. cbn [r_rhs]. rewrite map_length. apply (valid_ren _ _ Hv).
  Qed.
  Lemma complete_image g k t' : complete rs' sr (map (rsym f h) g) k t' -> exists t, t' = rterm f t.
  Proof. intros (r' & _ & Hv). destruct (valid_image _ _ Hv) as ([k0 p0 la] & E & _). unfold ritem in E. simpl in E. injection E as _ _ ->. eauto. Qed.
  Lemma wants_error_ren g k : wants_error rs' sr (map (rsym f h) g) k <-> wants_error rs sr g k.
  Proof.
    split.
    - intros (p & la' & r' & Hv & Hr & HX). destruct (valid_image _ _ Hv) as ([k0 p0 la] & E & Hv0). unfold ritem in E. simpl in E. injection E as -> -> ->.
      rewrite nth_ren in Hr. destruct (nth_error rs k0) as [r|] eqn:Er; [|discriminate]. injection Hr as <-. unfold rrule in HX. cbn [r_rhs] in HX.
      rewrite nth_rsym in HX. destruct (nth_error (r_rhs r) p0) as [[n|[t| |]]|] eqn:EY; try discriminate. exists p0, la, r. auto.
    - intros (p & la & r & Hv & Hr & HX). exists p, (rterm f la), (rrule f h r). split; [apply (valid_ren _ _ Hv)|]. split; [rewrite nth_ren, Hr; auto|].
      unfold rrule. cbn [r_rhs]. rewrite nth_rsym, HX. auto.
  Qed.
  Lemma dangling_ren : dangling rs' sr <-> dangling rs sr.
  Proof.
    split.
    - intros (g' & k & p & la' & r' & A' & t' & Hv & Hr & HA & Hno & Ht). destruct (valid_unren _ _ Hv) as (g & [k0 p0 la] & -> & E & Hv0). unfold ritem in E. simpl in E. injection E as -> -> ->.
      rewrite nth_ren in Hr. destruct (nth_error rs k0) as [r|] eqn:Er; [|discriminate]. injection Hr as <-. rewrite <- follow_ren in Ht. destruct (firsts_unren _ _ Ht) as (t & -> & Ht').
      unfold rrule in HA. cbn [r_rhs] in HA. rewrite nth_rsym in HA. destruct (nth_error (r_rhs r) p0) as [[A|u]|] eqn:EA; try discriminate. injection HA as <-.
      exists g, k0, p0, la, r, A, t. repeat (split; auto). intros r2 Hr2 E. apply (Hno (rrule f h r2)); [apply in_map; auto|]. simpl. congruence.
    - intros (g & k & p & la & r & A & t & Hv & Hr & HA & Hno & Ht). exists (map (rsym f h) g), k, p, (rterm f la), (rrule f h r), (h A), (rterm f t).
      split; [apply (valid_ren _ _ Hv)|]. split; [rewrite nth_ren, Hr; auto|]. split; [unfold rrule; cbn [r_rhs]; rewrite nth_rsym, HA; auto|]. split.
      + intros r' Hr'. unfold rs' in Hr'. apply in_map_iff in Hr' as (r2 & <- & Hr2). simpl. intros E. apply Hh in E. eapply Hno; eauto.
      + rewrite <- follow_ren. apply firsts_ren. auto.
  Qed.

  (** tables [p'] that hold under the new names what [p] holds under the old ones *)
  Record renamed (p p' : lr_parser) : Prop := {
    rn_start : p_start p' = p_start p;
    rn_action : forall s, match aget eqb s (p_action p), aget eqb s (p_action p') with
                  | Some row, Some row' => (forall t, aget eqb (rterm f t) row' = aget eqb t row) /\ (forall t' a, aget eqb t' row' = Some a -> exists t, t' = rterm f t)
                  | None, None => True
                  | _, _ => False
                  end;
    rn_goto : forall s, match aget eqb s (p_goto p), aget eqb s (p_goto p') with
                  | Some row, Some row' => (forall n, aget eqb (h n) row' = aget eqb n row) /\ (forall n' a, aget eqb n' row' = Some a -> exists n, n' = h n)
                  | None, None => True
                  | _, _ => False
                  end;
    rn_errors : forall s, match aget eqb s (p_errors p), aget eqb s (p_errors p') with
                  | Some ks, Some ks' => forall k, In k ks' <-> In k ks
                  | None, None => True
                  | _, _ => False
                  end }.

  Section Tables.
    Variables p p' : lr_parser.
    Hypothesis Hp : renamed p p'.

    Lemma next_ren s X : next_state p' s (rsym f h X) = next_state p s X.
    Proof.
      destruct X as [n|t]; simpl.
      - pose proof (rn_goto _ _ Hp s) as H. destruct (aget eqb s (p_goto p)), (aget eqb s (p_goto p')); try contradiction; auto. apply H.
      - pose proof (rn_action _ _ Hp s) as H. destruct (aget eqb s (p_action p)), (aget eqb s (p_action p')); try contradiction; auto. destruct H as [H _]. rewrite H. reflexivity.
    Qed.
    Lemma next_image s X' q : next_state p' s X' = Some q -> exists X, X' = rsym f h X.
    Proof.
      destruct X' as [n|t]; simpl.
      - pose proof (rn_goto _ _ Hp s) as H. destruct (aget eqb s (p_goto p)), (aget eqb s (p_goto p')); try contradiction; try discriminate.
        intros G. destruct (proj2 H _ _ G) as [m ->]. exists (NT m). auto.
      - pose proof (rn_action _ _ Hp s) as H. destruct (aget eqb s (p_action p)), (aget eqb s (p_action p')) as [row'|]; try contradiction; try discriminate.
        intros G. destruct (aget eqb t row') as [a|] eqn:Ea; [|discriminate]. destruct (proj2 H _ _ Ea) as [u ->]. exists (TM u). auto.
    Qed.
    Lemma run_ren g : forall s, run p' s (map (rsym f h) g) = run p s g.
    Proof. induction g as [|X g IH]; intros s; simpl; auto. rewrite next_ren. destruct (next_state p s X); auto. Qed.
    Lemma run_image g' : forall s q, run p' s g' = Some q -> exists g, g' = map (rsym f h) g.
    Proof.
      induction g' as [|X' g' IH]; intros s q H; [exists []; auto|]. simpl in H. destruct (next_state p' s X') as [s'|] eqn:En; [|discriminate].
      destruct (next_image _ _ _ En) as [X ->]. destruct (IH _ _ H) as [g ->]. exists (X :: g). auto.
    Qed.
    Lemma state_ren g : state_of p' (map (rsym f h) g) = state_of p g.
    Proof. unfold state_of. rewrite (rn_start _ _ Hp). apply run_ren. Qed.
    Lemma state_image g' q : state_of p' g' = Some q -> exists g, g' = map (rsym f h) g /\ state_of p g = Some q.
    Proof. intros H. destruct (run_image _ _ _ H) as [g ->]. exists g. split; auto. rewrite <- state_ren. auto. Qed.

    Theorem canonical_ren : canonical rs sr p -> p_rules p' = rs' -> canonical rs' sr p'.
    Proof.
      intros C Hr. constructor.
      - exact Hr.
      - intros g'. split.
        + intros [q H]. destruct (state_image _ _ H) as (g & -> & Hg). destruct (proj1 (can_state _ _ _ C g) (ex_intro _ q Hg)) as [it Hv]. eexists. apply valid_ren. eauto.
        + intros [it' Hv]. destruct (valid_unren _ _ Hv) as (g & it & -> & -> & Hv0). rewrite state_ren. apply (can_state _ _ _ C). eauto.
      - intros g1 g2 s1 s2 H1 H2. destruct (state_image _ _ H1) as (u1 & -> & Hu1). destruct (state_image _ _ H2) as (u2 & -> & Hu2).
        rewrite (can_same _ _ _ C _ _ _ _ Hu1 Hu2). split; intros H it.
        + split; intros Hv; destruct (valid_image _ _ Hv) as (it0 & -> & Hv0); apply valid_ren; apply H; auto.
        + rewrite <- !valid_ren_iff. apply H.
      - intros g' s H. destruct (state_image _ _ H) as (g & -> & Hg). destruct (can_action _ _ _ C _ _ Hg) as (row & Erow & D).
        pose proof (rn_action _ _ Hp s) as HA. rewrite Erow in HA. destruct (aget eqb s (p_action p')) as [row'|]; [|contradiction]. destruct HA as [HA1 HA2].
        exists row'. split; auto. intros t'.
        assert (Hacc : accepting rs' sr (map (rsym f h) g) <-> accepting rs sr g) by (apply (complete_ren g sr TEoi)).
        destruct (aget eqb t' row') as [a|] eqn:Ea.
        + destruct (HA2 _ _ Ea) as [t ->]. rewrite HA1 in Ea. specialize (D t). rewrite Ea in D.
          assert (Hw : wants rs' sr (map (rsym f h) g) (TM (rterm f t)) <-> wants rs sr g (TM t)) by (apply (wants_ren g (TM t))).
          assert (Ht : rterm f t = TEoi <-> t = TEoi) by (destruct t; simpl; split; congruence).
          destruct a as [q|k|]; simpl in D |- *; rewrite Hw.
          * split; [apply D|]. change [TM (rterm f t)] with (map (rsym f h) [TM t]). rewrite <- map_app, state_ren. apply D.
          * rewrite Ht, Hacc, complete_ren. destruct D as (D1 & D2 & D3 & D4 & D5). refine (conj D1 (conj D2 (conj D3 (conj D4 _)))).
            intros k' Hk'. rewrite complete_ren. auto.
          * rewrite Ht, Hacc. exact D.
        + simpl. split; [|split].
          * intros Hw. destruct (wants_image _ _ Hw) as ([n|t] & E); [discriminate|]. injection E as ->. rewrite HA1 in Ea. specialize (D t). rewrite Ea in D.
            apply (proj1 D). apply (wants_ren g (TM t)). exact Hw.
          * intros [-> Hc]. change TEoi with (rterm f TEoi) in Ea. rewrite HA1 in Ea. specialize (D TEoi). rewrite Ea in D. apply (proj1 (proj2 D)). split; auto. apply Hacc. auto.
          * intros k Hk Hc. destruct (complete_image _ _ _ Hc) as [t ->]. rewrite HA1 in Ea. specialize (D t). rewrite Ea in D. apply complete_ren in Hc. apply (proj2 (proj2 D) k Hk Hc).
      - intros g' s H. destruct (state_image _ _ H) as (g & -> & Hg). pose proof (can_errors _ _ _ C _ _ Hg) as D. pose proof (rn_errors _ _ Hp s) as HE.
        destruct (aget eqb s (p_errors p)) as [ks|]; destruct (aget eqb s (p_errors p')) as [ks'|]; try contradiction.
        + destruct D as [D1 D2]. split.
          * destruct ks as [|k ks]; [congruence|]. intros ->. apply (HE k). left. auto.
          * intros k. rewrite HE, wants_error_ren. apply D2.
        + intros k. rewrite wants_error_ren. apply D.
      - intros s row' H. pose proof (rn_action _ _ Hp s) as HA. rewrite H in HA. destruct (aget eqb s (p_action p)) as [row|] eqn:E0; [|contradiction].
        destruct (can_reached _ _ _ C _ _ E0) as [g Hg]. exists (map (rsym f h) g). rewrite state_ren. auto.
      - intros s row' H. pose proof (rn_goto _ _ Hp s) as HA. rewrite H in HA. destruct (aget eqb s (p_goto p)) as [row|] eqn:E0; [|contradiction].
        destruct (can_goto_reached _ _ _ C _ _ E0) as [g Hg]. exists (map (rsym f h) g). rewrite state_ren. auto.
    Qed.
  End Tables.
End Rename.
