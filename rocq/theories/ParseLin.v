(** * How many turns [parse] takes, for grammars whose reductions come to an end *)
From Coq Require Import List Arith Lia Bool.
From Verif Require Import Lib Grammar LrModel LrSpec LrSets LrStates LrNew LrTop ParseModel Trees ParseInv ParseComplete GramFacts ParseTerm.
Import ListNotations.

Lemma finite_choice {A} (l : list A) (Q : A -> nat -> Prop) : (forall a n m, Q a n -> n <= m -> Q a m) ->
  (forall a, In a l -> exists n, Q a n) -> exists n, forall a, In a l -> Q a n.
Proof.
  intros Hm. induction l as [|a l IH]; intros H; [exists 0; intros a []|].
  destruct (H a) as [n Hn]; [left; auto|]. destruct IH as [m Hm0]; [intros; apply H; right; auto|].
  exists (max n m). intros b [<-|Hb]; [apply (Hm a n); auto; lia|apply (Hm b m); auto; lia].
Qed.

Section Lin.
  Variables (rules : list rule) (start ss : nat).
  Let rs := augment rules start ss.
  Let sr := length rules.
  Variable p : lr_parser.
  Hypothesis Hss : ~ In ss (nonterminals rules).
  Hypothesis Hcan : canonical rs sr p.
  Notation rstep := (rstep rules start ss).
  Hypothesis Hwf : forall t, well_founded (rstep t).

  Lemma state_app g u : state_of p (g ++ u) = match state_of p g with Some s => run p s u | None => None end.
  Proof.
    unfold state_of. generalize (p_start p). induction g as [|X g IH]; intros s; simpl; auto. destruct (next_state p s X); auto.
  Qed.
  Lemma same_app g g' s : state_of p g = Some s -> state_of p g' = Some s -> forall u q, state_of p (g ++ u) = Some q ->
    state_of p (g' ++ u) = Some q /\ forall it, valid rs sr (g ++ u) it <-> valid rs sr (g' ++ u) it.
  Proof.
    intros H H' u q Hu. assert (Hu' : state_of p (g' ++ u) = Some q) by (rewrite state_app, H'; rewrite state_app, H in Hu; exact Hu).
    split; auto. apply (can_same _ _ _ Hcan _ _ _ _ Hu Hu'). auto.
  Qed.
  Lemma complete_state g k t : complete rs sr g k t -> exists q, state_of p g = Some q.
  Proof. intros (r & _ & Hv). apply (can_state _ _ _ Hcan). eauto. Qed.
  Lemma same_complete g g' s u k t : state_of p g = Some s -> state_of p g' = Some s -> complete rs sr (g ++ u) k t -> complete rs sr (g' ++ u) k t.
  Proof.
    intros H H' Hc. destruct (complete_state _ _ _ Hc) as [q Hq]. destruct Hc as (r & Hr & Hv). exists r. split; auto.
    apply (same_app _ _ _ H H' u q Hq). auto.
  Qed.

  (** the reduction that the tables choose *)
  Definition chosen (g : list sym) (k : nat) (t : term) : Prop := ~ wants rs sr g (TM t) /\ ~ (t = TEoi /\ accepting rs sr g) /\
    k <> sr /\ complete rs sr g k t /\ (forall k', k' <> sr -> complete rs sr g k' t -> k <= k').
  Lemma same_chosen g g' s u k t : state_of p g = Some s -> state_of p g' = Some s -> chosen (g ++ u) k t -> chosen (g' ++ u) k t.
  Proof.
    intros H H' Hc. assert (Hq : exists q, state_of p (g ++ u) = Some q) by (destruct Hc as (_ & _ & _ & Hc & _); eapply complete_state; eauto).
    destruct Hq as [q Hq]. destruct (same_app _ _ _ H H' u q Hq) as [_ Hi].
    assert (Hcm : forall k, complete rs sr (g ++ u) k t <-> complete rs sr (g' ++ u) k t).
    { intros k0. split; intros (r & Hr & Hv); exists r; (split; auto; apply Hi; auto). }
    destruct Hc as (C1 & C2 & C3 & C4 & C5). split; [|split; [|split; [|split]]]; auto.
    - intros (k0 & q0 & la & r & Hv & Hx). apply C1. exists k0, q0, la, r. split; auto. apply Hi. auto.
    - intros [E (r & Hr & Hv)]. apply C2. split; auto. exists r. split; auto. apply Hi. auto.
    - apply Hcm. auto.
    - intros k' Hk' Hc'. apply C5; auto. apply Hcm. auto.
  Qed.
  Lemma chosen_det g k k' t : chosen g k t -> chosen g k' t -> k = k'.
  Proof. intros (_ & _ & A1 & A2 & A3) (_ & _ & B1 & B2 & B3). pose proof (A3 _ B1 B2). pose proof (B3 _ A1 A2). lia. Qed.

  (** reductions above the symbols [g], which stay where they are *)
  Inductive above (t : term) (g : list sym) : nat -> list sym -> list sym -> Prop :=
  | above_none u : above t g 0 u u
  | above_one n d k r u' : nth_error rs k = Some r -> chosen (g ++ d ++ r_rhs r) k t ->
      above t g n (d ++ [NT (r_lhs r)]) u' -> above t g (S n) (d ++ r_rhs r) u'.

  (** from a given state there is a bound, whatever is below *)
  Definition bounded (s : nat) (t : term) (u : list sym) (K : nat) : Prop :=
    forall g n u', state_of p g = Some s -> above t g n u u' -> n <= K /\ length u' <= K.

  Lemma local_bound s t g0 : state_of p g0 = Some s -> forall g1, Acc (rstep t) g1 -> forall u, g1 = g0 ++ u -> exists K, bounded s t u K.
  Proof.
    intros Hs g1 Hacc. induction Hacc as [g1 _ IH]. intros u ->.
    assert (Hno : (forall k, ~ chosen (g0 ++ u) k t) -> exists K, bounded s t u K).
    { intros Hno. exists (length u). intros g n u' Hg Ha. destruct Ha as [u|n d k r u' Hr Hc Ha]; [lia|]. exfalso.
      apply (Hno k). exact (same_chosen _ _ _ _ _ _ Hg Hs Hc). }
    destruct (state_of p (g0 ++ u)) as [q|] eqn:Eq.
    2:{ apply Hno. intros k (_ & _ & _ & Hc & _). apply complete_state in Hc as [q Hq]. congruence. }
    destruct (can_action _ _ _ Hcan _ _ Eq) as (row & _ & Hrow). specialize (Hrow t).
    destruct (aget eqb t row) as [[q'|k|]|].
    - apply Hno. intros k (Hx & _). apply Hx, Hrow.
    - change (chosen (g0 ++ u) k t) in Hrow. pose proof Hrow as (_ & Hna & Hk & Hc & _).
      pose proof Hc as (r & Hr & _).
      assert (Hd : (exists d, u = d ++ r_rhs r) \/ forall d, u <> d ++ r_rhs r).
      { destruct (list_eq_dec eq_dec (skipn (length u - length (r_rhs r)) u) (r_rhs r)) as [E|E].
        - left. exists (firstn (length u - length (r_rhs r)) u). rewrite <- E at 2. symmetry. apply firstn_skipn.
        - right. intros d ->. apply E. rewrite app_length. replace (length d + length (r_rhs r) - length (r_rhs r)) with (length d) by lia.
          rewrite skipn_app, skipn_all, Nat.sub_diag. reflexivity. }
      destruct Hd as [[d ->]|Hd].
      + destruct (IH (g0 ++ d ++ [NT (r_lhs r)])) with (u := d ++ [NT (r_lhs r)]) as [K HK]; auto.
        { split; auto. exists (g0 ++ d), k, r. rewrite <- !app_assoc. auto. }
        exists (S K + length (d ++ r_rhs r)). intros g n u' Hg Ha. remember (d ++ r_rhs r) as u. destruct Ha as [u|n d' k' r' u' Hr' Hc' Ha]; [lia|].
        apply (same_chosen g g0 s _ _ _ Hg Hs) in Hc'. pose proof (chosen_det _ _ _ _ Hc' Hrow). subst k'.
        assert (r' = r) by congruence. subst r'. apply app_inv_tail in Hequ. subst d'. destruct (HK g n u' Hg Ha). lia.
      + exists (length u). intros g n u' Hg Ha. destruct Ha as [u|n d' k' r' u' Hr' Hc' Ha]; [lia|]. exfalso.
        apply (same_chosen g g0 s _ _ _ Hg Hs) in Hc'. pose proof (chosen_det _ _ _ _ Hc' Hrow). subst k'.
        assert (r' = r) by congruence. subst r'. eapply Hd; eauto.
    - apply Hno. intros k (_ & Hx & _). apply Hx, Hrow.
    - apply Hno. intros k (_ & _ & Hk & Hc & _). destruct Hrow as (_ & _ & Hrow). eapply Hrow; eauto.
  Qed.

  (** the states, symbols and lookaheads of the tables *)
  Definition states : list nat := map fst (p_action p).
  Definition symbols : list sym :=
    flat_map (fun kr => map (fun kv => NT (fst kv)) (snd kr)) (p_goto p) ++ flat_map (fun kr => map (fun kv => TM (fst kv)) (snd kr)) (p_action p).
  Definition lookaheads : list term := flat_map (fun kr => map fst (snd kr)) (p_action p).
  Lemma aget_in {V} (k : nat) (l : list (nat * V)) v : aget eqb k l = Some v -> In (k, v) l.
  Proof. intros H. apply (aget_In _ (eqb_eq (A:=nat))) in H. exact H. Qed.
  Lemma state_in g s : state_of p g = Some s -> In s states.
  Proof. intros H. destruct (can_action _ _ _ Hcan _ _ H) as (row & Hr & _). apply aget_in in Hr. apply (in_map fst) in Hr. exact Hr. Qed.

  Lemma symbol_in g X s : state_of p (g ++ [X]) = Some s -> In X symbols.
  Proof.
    rewrite state_app. destruct (state_of p g) as [q|]; [|discriminate]. simpl. unfold next_state, symbols. intros H. apply in_or_app. destruct X as [A|t].
    - left. destruct (aget eqb q (p_goto p)) as [row|] eqn:Er; [|discriminate]. destruct (aget eqb A row) as [v|] eqn:Ea; [|discriminate].
      apply in_flat_map. exists (q, row). split; [apply aget_in; auto|]. apply in_map_iff. exists (A, v). split; auto. apply aget_in; auto.
    - right. destruct (aget eqb q (p_action p)) as [row|] eqn:Er; [|discriminate]. destruct (aget eqb t row) as [v|] eqn:Ea; [|discriminate].
      apply in_flat_map. exists (q, row). split; [apply aget_in; auto|]. apply in_map_iff. exists (t, v). split; auto. apply (aget_In _ (eqb_eq (A:=term))). auto.
  Qed.
  Lemma lookahead_in g k t : k <> sr -> complete rs sr g k t -> In t lookaheads.
  Proof.
    intros Hk Hc. destruct (complete_state _ _ _ Hc) as [s Hs]. destruct (can_action _ _ _ Hcan _ _ Hs) as (row & Hr & Hd). specialize (Hd t).
    destruct (aget eqb t row) as [v|] eqn:Ev.
    - apply in_flat_map. exists (s, row). split; [apply aget_in; auto|]. apply in_map_iff. exists (t, v). split; auto. apply (aget_In _ (eqb_eq (A:=term))). auto.
    - exfalso. simpl in Hd. destruct Hd as (_ & _ & Hd). eapply Hd; eauto.
  Qed.

  (** one bound for all *)
  Lemma uniform : exists K, 1 <= K /\ forall t g u n u', length u <= 1 -> above t g n u u' -> n <= K /\ length u' <= K.
  Proof.
    destruct (finite_choice (list_prod states (list_prod lookaheads ([] :: map (fun X => [X]) symbols)))
      (fun x K => forall g n u', state_of p g = Some (fst x) -> above (fst (snd x)) g n (snd (snd x)) u' -> n <= K /\ length u' <= K)) as [K HK].
    - intros a n m H Hle g k u' Hg Ha. specialize (H g k u' Hg Ha). lia.
    - intros [s [t u]] Hin. apply in_prod_iff in Hin as [Hs _]. simpl.
      destruct (aget eqb s (p_action p)) as [row|] eqn:Er.
      + destruct (can_reached _ _ _ Hcan _ _ Er) as [g0 Hg0].
        destruct (local_bound s t g0 Hg0 (g0 ++ u) (Hwf t _) u eq_refl) as [K HK]. exists K. exact HK.
      + exfalso. apply in_map_iff in Hs as ([s' row] & E & Hin). simpl in E. subst s'.
        apply (aget_None _ (eqb_eq (A:=nat))) in Er. apply Er. apply (in_map fst) in Hin. exact Hin.
    - exists (S K). split; [lia|]. intros t g u n u' Hu Ha. destruct Ha as [u|n d k r u' Hr Hch Ha]; [lia|]. pose proof Hch as (_ & _ & Hk & Hc & _).
      destruct (complete_state _ _ _ Hc) as [q Hq].
      destruct (state_of p g) as [s|] eqn:Es; [|rewrite state_app, Es in Hq; discriminate].
      assert (Hin : In (s, (t, d ++ r_rhs r)) (list_prod states (list_prod lookaheads ([] :: map (fun X => [X]) symbols)))).
      { apply in_prod; [eapply state_in; eauto|]. apply in_prod; [eapply lookahead_in; eauto|].
        destruct (d ++ r_rhs r) as [|X [|Y l]]; [left; auto| |simpl in Hu; lia]. right. apply (in_map (fun X => [X]) symbols X). eapply symbol_in; eauto. }
      destruct (HK _ Hin g (S n) u' Es) as [A B]; [simpl; econstructor; eauto|]. lia.
  Qed.

  (** a run either stays above the first symbols or takes some of them *)
  Lemma above_split t b n g g' : above t [] n g g' -> forall u, g = b ++ u ->
    (exists u', above t b n u u' /\ g' = b ++ u') \/
    (exists n1 n2 u1 d X, n = n1 + 1 + n2 /\ above t b n1 u u1 /\ length d < length b /\ above t [] n2 (d ++ [X]) g').
  Proof.
    induction 1 as [g|n d k r g' Hr Hc Ha IH]; intros u Eg.
    - left. exists u. split; auto. constructor.
    - simpl in *. destruct (Nat.le_gt_cases (length b) (length d)) as [Hle|Hlt].
      + assert (Ed : d = b ++ skipn (length b) d).
        { rewrite <- (firstn_skipn (length b) d) at 1. f_equal.
          assert (E : firstn (length b) (d ++ r_rhs r) = firstn (length b) (b ++ u)) by (f_equal; auto).
          rewrite !firstn_app, firstn_all, Nat.sub_diag in E. replace (length b - length d) with 0 in E by lia. simpl in E. rewrite !app_nil_r in E. exact E. }
        set (d' := skipn (length b) d) in *. clearbody d'. subst d. rewrite <- app_assoc in Eg. apply app_inv_head in Eg. subst u.
        rewrite <- app_assoc in *. destruct (IH _ eq_refl) as [(u' & A & B)|(n1 & n2 & u1 & d & X & A & B & C & D)].
        * left. exists u'. split; auto. econstructor; eauto.
        * right. exists (S n1), n2, u1, d, X. split; [lia|]. split; [econstructor; eauto|auto].
      + right. exists 0, n, u, d, (NT (r_lhs r)). split; [lia|]. split; [constructor|auto].
  Qed.

  (** the reductions at one lookahead, against the height of the stack before and after *)
  Lemma burst : exists M C, forall t n g g', above t [] n g g' -> n + M * length g' <= M * length g + C.
  Proof.
    destruct uniform as (K & HK1 & HK). exists (S K), (K + S K * K). intros t n g.
    remember (length g) as m eqn:Em. revert n g Em. induction m as [m IH] using (well_founded_induction Wf_nat.lt_wf). intros n g Em g' Ha.
    assert (Hg : g = [] \/ exists b X, g = b ++ [X]) by (clear; induction g as [|X g IH] using rev_ind; [left|right]; eauto).
    destruct Hg as [->|(b & X & ->)].
    - destruct (HK t [] [] n g') as [A B]; auto. simpl in Em. nia.
    - rewrite app_length in Em. simpl in Em. destruct (above_split t b n _ g' Ha [X] eq_refl) as [(u' & A & ->)|(n1 & n2 & u1 & d & Y & E & A & B & D)].
      + destruct (HK t b [X] n u') as [H1 H2]; auto. rewrite app_length. nia.
      + destruct (HK t b [X] n1 u1) as [H1 H2]; auto. pose proof (IH (length (d ++ [Y])) ltac:(rewrite app_length; simpl; lia) n2 _ eq_refl _ D) as H3.
        rewrite app_length in H3. simpl length in H3. nia.
  Qed.
End Lin.

(** ** [parse] *)
Section Turns.
  Context {N T E : Type} (tix : T -> nat).
  Variables (rules : list rule) (start ss : nat).
  Let rs := augment rules start ss.
  Let sr := length rules.
  Variable P : parser N T E.
  Let p := pr_tab P.
  Hypothesis Hss : ~ In ss (nonterminals rules).
  Hypothesis Heoi : no_eoi rules.
  Hypothesis Hcan : canonical rs sr p.
  Hypothesis Hgens : length (pr_gens P) = length rs.
  Variables M C : nat.
  Hypothesis Hburst : forall t n g g', above rules start ss t [] n g g' -> n + M * length g' <= M * length g + C.

  Lemma turns_from input fuel : forall s g ts pos, inv_at tix rules start ss P input s g ts pos ->
    noerr rules \/ conflict_free rs sr /\ astar rules start ss (g, words tix (skipn pos input)) ([NT start], []) ->
    (forall j g', above rules start ss (la_at tix input pos) [] j g g' -> j + M * length g' + 1 + (length input - pos) * (M + C + 1) <= fuel) ->
    loop (parse_step tix P) fuel s <> OutOfFuel.
  Proof.
    induction fuel as [|fuel IH]; intros s g ts pos Hinv Hok Hf.
    { specialize (Hf 0 g (above_none _ _ _ _ _ _)). nia. }
    simpl. destruct (step_cases tix rules start ss P input Hss Heoi Hcan Hgens s g ts pos Hinv) as (d & Hd & Hc).
    destruct d as [[q|k|]|]; simpl in Hc.
    - destruct Hc as (_ & Hlt & s' & Hs & Hi). rewrite Hs. destruct (nth_error input pos) as [x|] eqn:Ex; [|apply nth_error_None in Ex; lia].
      assert (Hla : la_at tix input pos = TSym (tix x)) by (unfold la_at; rewrite Ex; auto).
      eapply IH; [exact Hi| |].
      + destruct Hok as [Hok|[Hcf Hok]]; [left; auto|right]. split; auto. rewrite (skipn_nth_cons _ _ _ Ex) in Hok. simpl in Hok, Hd. rewrite Hla in *.
        inversion Hok as [c Ec|c c1 c2 Hst Hr]; subst.
        assert (Est : c1 = (g ++ [TM (TSym (tix x))], words tix (skipn (S pos) input))) by (eapply astep_det; [exact Hcf|exact Hst|constructor; apply Hd]).
        subst c1. exact Hr.
      + intros j g' Ha. specialize (Hf 0 g (above_none _ _ _ _ _ _)). apply Hburst in Ha. rewrite app_length in Ha. simpl length in Ha.
        replace (length input - pos) with (S (length input - S pos)) in Hf by lia. nia.
    - destruct Hc as [(r & _ & _ & Hs & _)|(r & dd & ts1 & ts2 & args & gen & E1 & E2 & E3 & _ & E4 & E5 & E6 & E7 & E8 & E9)]; [rewrite Hs; discriminate|].
      destruct (gen args) as [v|e|].
      + destruct E9 as (s' & Hs & Hi). rewrite Hs. pose proof Hd as (_ & Hna & Hk & Hcm & _). subst g. eapply IH; [exact Hi| |].
        * destruct Hok as [Hok|[Hcf Hok]]; [left; auto|right]. split; auto. inversion Hok as [c Ec|c c1 c2 Hst Hr]; subst.
          { exfalso. apply Hna. match goal with H : _ ++ _ = [NT start] |- _ => rewrite H end. split; [|apply accepting_start]. unfold la_at. destruct (nth_error input pos) as [x|] eqn:Ex; auto.
            match goal with H : words _ _ = [] |- _ => rewrite (skipn_nth_cons _ _ _ Ex) in H; discriminate H end. }
          assert (Est : c1 = (dd ++ [NT (r_lhs r)], words tix (skipn pos input))).
          { eapply astep_det; [exact Hcf|exact Hst|]. econstructor; eauto. replace (fst_of (words tix (skipn pos input)) TEoi) with (la_at tix input pos); [exact Hcm|].
            unfold la_at. destruct (nth_error input pos) as [x|] eqn:Ex; [rewrite (skipn_nth_cons _ _ _ Ex); auto|]. apply nth_error_None in Ex. rewrite skipn_all2; auto. }
          subst c1. exact Hr.
        * intros j g' Ha. assert (Ha' : above rules start ss (la_at tix input pos) [] (S j) (dd ++ r_rhs r) g') by (econstructor; eauto).
          specialize (Hf _ _ Ha'). lia.
      + destruct E9 as [it Hs]. rewrite Hs. discriminate.
      + rewrite E9. discriminate.
    - destruct Hc as (_ & _ & _ & t & v & _ & _ & Hs). rewrite Hs. discriminate.
    - destruct Hc as [_ [(it & Hs & _)|(s' & _ & Hne & _)]]; [rewrite Hs; discriminate|]. exfalso. destruct Hok as [Hok|[Hcf Hok]]; [tauto|].
      assert (Ela : la_at tix input pos = fst_of (words tix (skipn pos input)) TEoi).
      { unfold la_at. destruct (nth_error input pos) as [x|] eqn:Ex; [rewrite (skipn_nth_cons _ _ _ Ex); auto|]. apply nth_error_None in Ex. rewrite skipn_all2; auto. }
      rewrite Ela in Hd. inversion Hok as [c Ec|c c1 c2 Hst Hr]; subst.
      + simpl in Hd. match goal with H : words _ _ = [] |- _ => rewrite H in Hd end. destruct Hd as (_ & Hd & _). apply Hd. split; auto. apply accepting_start.
      + eapply stuck_step; eauto.
  Qed.

  Theorem turns input : noerr rules \/ conflict_free rs sr /\ der rules (NT start) (words tix input) ->
    parse_full tix P ((M + C + 1) * S (length input)) input <> OutOfFuel.
  Proof.
    intros H. eapply (turns_from input _ (ps_init P input) [] [] 0).
    - constructor; simpl; auto; try constructor; auto.
    - destruct H as [H|[Hcf H]]; [left; auto|right]. split; auto. simpl. apply machine_word. exact H.
    - intros j g' Ha. apply Hburst in Ha. simpl length in Ha. nia.
  Qed.
End Turns.
