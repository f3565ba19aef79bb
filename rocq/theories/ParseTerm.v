(** * Termination of [parse] and detection of errors, for grammars without error rules *)
From Coq Require Import List Arith Lia Bool Sorted.
From Verif Require Import Lib Grammar LrModel LrSpec LrSets LrStates LrNew LrTop ParseModel Trees ParseInv ParseComplete GramFacts.
Import ListNotations.

(** ** The automaton on strings of symbols *)
Section Machine.
  Variables (rules : list rule) (start ss : nat).
  Let rs := augment rules start ss.
  Let sr := length rules.
  Hypothesis Hss : ~ In ss (nonterminals rules).
  Hypothesis Heoi : no_eoi rules.

  Inductive astep : list sym * list term -> list sym * list term -> Prop :=
  | a_shift g t w : wants rs sr g (TM t) -> astep (g, t :: w) (g ++ [TM t], w)
  | a_red d k r w : nth_error rs k = Some r -> k <> sr -> complete rs sr (d ++ r_rhs r) k (fst_of w TEoi) ->
      astep (d ++ r_rhs r, w) (d ++ [NT (r_lhs r)], w).
  Inductive astar : list sym * list term -> list sym * list term -> Prop :=
  | as_refl c : astar c c
  | as_step c c1 c2 : astep c c1 -> astar c1 c2 -> astar c c2.
  Lemma astar_trans a b c : astar a b -> astar b c -> astar a c.
  Proof. induction 1; auto. intros. eapply as_step; eauto. Qed.
  Lemma astar_one a b : astep a b -> astar a b.
  Proof. intros. eapply as_step; [eauto|constructor]. Qed.

  Lemma valid_adv g k r b : valid rs sr g (mk_item k 0 b) -> nth_error rs k = Some r ->
    forall m, m <= length (r_rhs r) -> valid rs sr (g ++ firstn m (r_rhs r)) (mk_item k m b).
  Proof.
    intros Hv Hr. induction m as [|m IHm]; intros Hm; [rewrite app_nil_r; auto|].
    destruct (nth_error (r_rhs r) m) as [Y|] eqn:EY; [|apply nth_error_None in EY; lia].
    assert (Ef : firstn (S m) (r_rhs r) = firstn m (r_rhs r) ++ [Y]).
    { clear - EY. revert m EY. induction (r_rhs r) as [|Z l IH]; intros [|m] EY; simpl in *; try discriminate; [congruence|]. f_equal. auto. }
    rewrite Ef, app_assoc. eapply valid_goto; eauto. apply IHm. lia.
  Qed.
  Lemma valid_complete g k r b : valid rs sr g (mk_item k 0 b) -> nth_error rs k = Some r -> complete rs sr (g ++ r_rhs r) k b.
  Proof.
    intros Hv Hr. exists r. split; auto. pose proof (valid_adv g k r b Hv Hr _ (le_n _)) as H. rewrite firstn_all in H. exact H.
  Qed.
  Lemma rules_nth r : In r rules -> exists k, k <> sr /\ nth_error rs k = Some r.
  Proof.
    intros H. apply In_nth_error in H as [k Hk]. exists k. assert (k < length rules) by (eapply nth_error_Some_lt; eauto).
    split; [unfold sr; lia|]. unfold rs, augment. rewrite nth_error_app1; auto.
  Qed.

  Lemma fst_of_app u v b : fst_of (u ++ v) b = fst_of u (fst_of v b).
  Proof. destruct u; auto. Qed.

  (** derivable strings are recognised *)
  Lemma machine_complete :
    (forall X w, der rules X w -> forall g k q b r v, valid rs sr g (mk_item k q b) -> nth_error rs k = Some r -> nth_error (r_rhs r) q = Some X ->
       firsts rs (skipn (S q) (r_rhs r) ++ [TM b]) (fst_of v TEoi) -> astar (g, w ++ v) (g ++ [X], v)) /\
    (forall l w, ders rules l w -> forall g k q b r v, valid rs sr g (mk_item k q b) -> nth_error rs k = Some r -> skipn q (r_rhs r) = l ->
       fst_of v TEoi = b -> astar (g, w ++ v) (g ++ l, v)).
  Proof.
    apply der_ders_ind.
    - intros t g k q b r v Hv Hr HX _. apply astar_one. constructor. exists k, q, b, r. auto.
    - intros r' w Hr' _ IH g k q b r v Hv Hr HX Hf. destruct (rules_nth r' Hr') as (k' & Hk' & Hn).
      assert (Hv' : valid rs sr g (mk_item k' 0 (fst_of v TEoi))) by (eapply valid_closure; eauto).
      eapply astar_trans; [apply (IH g k' 0 _ r' v Hv' Hn eq_refl eq_refl)|]. apply astar_one. econstructor; eauto. eapply valid_complete; eauto.
    - intros g k q b r v _ _ _ _. rewrite app_nil_r. constructor.
    - intros X l u v Hu IH1 Hd IH2 g k q b r z Hv Hr Hl Hz. destruct (skipn_nth _ _ _ _ Hl) as [HX Hl'].
      rewrite <- app_assoc. eapply astar_trans.
      + eapply (IH1 g k q b r (v ++ z)); eauto. rewrite Hl', fst_of_app, Hz.
        pose proof (ders_firsts rs l v b (proj2 (der_incl rules rs (aug_incl rules start ss)) _ _ Hd)) as Hf. destruct v; exact Hf.
      + change (X :: l) with ([X] ++ l). rewrite app_assoc. eapply (IH2 (g ++ [X]) k (S q) b r z); eauto. eapply valid_goto; eauto.
  Qed.

  Lemma machine_word w : der rules (NT start) w -> astar ([], w) ([NT start], []).
  Proof.
    intros H. pose proof (proj1 machine_complete _ _ H [] sr 0 TEoi _ [] (valid_start rs sr) (augment_start rules start ss) eq_refl) as M.
    rewrite app_nil_r in M. apply M. simpl. exists []. constructor.
  Qed.

  (** in a productive grammar every reduction is part of some accepting run *)
  Lemma machine_cont : productive rules -> forall g it, valid rs sr g it -> i_rule it <> sr ->
    exists r d z, nth_error rs (i_rule it) = Some r /\ g = d ++ firstn (i_pos it) (r_rhs r) /\ fst_of z TEoi = i_la it /\
      astar (d ++ [NT (r_lhs r)], z) ([NT start], []).
  Proof.
    intros Hp g it H. pose proof H as H0. induction H as [|g k p la r X H IH Hr Hpos|g k p la r A k' r' t H IH Hr Hpos Hr' HA Ht]; simpl in *; intros Hk.
    - congruence.
    - destruct (IH H Hk) as (r1 & d & z & E1 & E2 & E3 & E4). rewrite Hr in E1. injection E1 as <-. exists r, d, z. split; auto. split; auto.
      rewrite E2, <- app_assoc. f_equal. clear - Hpos. revert p Hpos. induction (r_rhs r) as [|Y l IH]; intros [|p] Hpos; simpl in *; try discriminate.
      + injection Hpos as ->. reflexivity.
      + f_equal. auto.
    - destruct (Nat.eq_dec k sr) as [->|Hks].
      + exists r', [], []. split; auto. unfold rs, sr in Hr. rewrite augment_start in Hr. injection Hr as <-. simpl in Hpos. destruct p as [|p]; [|destruct p; discriminate].
        pose proof (start_item_la rules start ss Hss _ _ H eq_refl) as Hla. simpl in Hla. subst la. simpl in Ht. injection Hpos as Hpos.
        pose proof (start_items rules start ss Hss _ _ H eq_refl) as Eg. simpl in Eg. subst g. split; auto. split.
        * apply firsts_firstl in Ht. inversion Ht; subst; auto. match goal with Hx : der _ (TM _) [] |- _ => inversion Hx end.
        * rewrite HA, <- Hpos. constructor.
      + destruct (IH H Hks) as (r1 & d & z & E1 & E2 & E3 & E4). rewrite Hr in E1. injection E1 as <-.
        assert (Hir : In r rules) by (unfold rs in Hr; rewrite augment_old in Hr by auto; eapply nth_error_In; eauto).
        destruct (firsts_word rules start ss Hss (skipn (S p) (r_rhs r)) la t Hp Ht) as (w & Hw & Et).
        { pose proof (prod_ok rules ss Hss r Hp Hir) as Hf. rewrite <- (firstn_skipn (S p) (r_rhs r)) in Hf. apply Forall_app in Hf. tauto. }
        exists r', g, (w ++ z). split; auto. rewrite app_nil_r. split; auto. split; [rewrite fst_of_app, E3; auto|].
        subst A. eapply astar_trans.
        * eapply (proj2 machine_complete _ _ Hw (g ++ [NT (r_lhs r')]) k (S p) la r z); auto. eapply valid_goto; eauto.
        * eapply as_step; [|exact E4]. rewrite E2. assert (Eg : ((d ++ firstn p (r_rhs r)) ++ [NT (r_lhs r')]) ++ skipn (S p) (r_rhs r) = d ++ r_rhs r).
          { rewrite <- !app_assoc. f_equal. rewrite <- (firstn_skipn p (r_rhs r)) at 3. f_equal. rewrite (skipn_nth_cons _ _ _ Hpos). reflexivity. }
          rewrite Eg. econstructor; eauto. rewrite E3. exists r. split; auto. rewrite E2 in H.
          assert (G : forall m, p + m <= length (r_rhs r) -> valid rs sr (d ++ firstn (p + m) (r_rhs r)) (mk_item k (p + m) la)).
          { induction m as [|m IHm]; intros Hm; [rewrite Nat.add_0_r; auto|].
            destruct (nth_error (r_rhs r) (p + m)) as [Y|] eqn:EY; [|apply nth_error_None in EY; lia].
            assert (Ef : firstn (p + S m) (r_rhs r) = firstn (p + m) (r_rhs r) ++ [Y]).
            { rewrite Nat.add_succ_r. clear - EY. revert EY. generalize (p + m). induction (r_rhs r) as [|Z l IH]; intros [|q] EY; simpl in *; try discriminate; [congruence|]. f_equal. auto. }
            rewrite Ef, app_assoc, Nat.add_succ_r. eapply valid_goto; eauto. apply IHm. lia. }
          assert (p < length (r_rhs r)) by (eapply nth_error_Some_lt; eauto).
          specialize (G (length (r_rhs r) - p) ltac:(lia)). replace (p + (length (r_rhs r) - p)) with (length (r_rhs r)) in G by lia. rewrite firstn_all in G. exact G.
  Qed.

  Section Det.
    Hypothesis Hcf : conflict_free rs sr.
    Lemma astep_det c c1 c2 : astep c c1 -> astep c c2 -> c1 = c2.
    Proof.
      intros H1 H2. inversion H1; subst; inversion H2; subst.
      - reflexivity.
      - exfalso. match goal with Hx : complete _ _ _ _ _, Hk : _ <> sr |- _ => destruct (Hcf _ _ _ Hk Hx) as [Hn _] end. simpl in *. congruence.
      - exfalso. match goal with Hx : complete _ _ _ _ _, Hk : _ <> sr |- _ => destruct (Hcf _ _ _ Hk Hx) as [Hn _] end. simpl in *. congruence.
      - match goal with Hx : complete _ _ (d ++ _) k _, Hk : k <> sr, Hy : complete _ _ _ k0 _, Hk0 : k0 <> sr |- _ =>
          destruct (Hcf _ _ _ Hk Hx) as [_ Hu]; match goal with He : d0 ++ _ = d ++ _ |- _ => rewrite He in Hy; pose proof (Hu _ Hk0 Hy); subst k0; assert (r0 = r) by congruence; subst r0; apply app_inv_tail in He; subst d0 end end. reflexivity.
    Qed.
    Lemma astar_det c c1 c2 : astar c c1 -> astar c c2 -> astar c1 c2 \/ astar c2 c1.
    Proof.
      intros H. revert c2. induction H as [c|c c' c1 Hs H IH]; intros c2 H2; auto. inversion H2; subst.
      - right. eapply as_step; eauto.
      - rewrite (astep_det _ _ _ Hs H0) in *. auto.
    Qed.
    Lemma astar_len c c' : astar c c' -> length (snd c') <= length (snd c).
    Proof. induction 1 as [c|c c1 c2 H _ IH]; auto. inversion H; subst; simpl in *; lia. Qed.

    (** one reduction that [parse] makes with lookahead [t] *)
    Definition rstep (t : term) (g1 g : list sym) : Prop := ~ (t = TEoi /\ accepting rs sr g) /\
      exists d k r, nth_error rs k = Some r /\ k <> sr /\ g = d ++ r_rhs r /\ complete rs sr g k t /\ g1 = d ++ [NT (r_lhs r)].

    Lemma accepting_start : accepting rs sr [NT start].
    Proof.
      exists (mk_rule ss [NT start]). split; [apply augment_start|]. change [NT start] with ([] ++ [NT start]).
      eapply valid_goto; [constructor|apply augment_start|reflexivity].
    Qed.

    Lemma run_acc c c' : astar c c' -> c' = ([NT start], []) -> Acc (rstep (fst_of (snd c) TEoi)) (fst c).
    Proof.
      induction 1 as [c|c c1 c2 Hs H IH]; intros Ec.
      - subst c. constructor. intros g1 (Hn & _). exfalso. apply Hn. split; auto. apply accepting_start.
      - specialize (IH Ec). inversion Hs as [g t w Hw|d k r w Hr Hk Hc]; subst c c1; simpl in *.
        + constructor. intros g1 (_ & d & k & r & Hr & Hk & -> & Hc & _). exfalso. destruct (Hcf _ _ _ Hk Hc). auto.
        + constructor. intros g1 (_ & d' & k' & r' & Hr' & Hk' & Eg & Hc' & ->).
          destruct (Hcf _ _ _ Hk Hc) as [_ Hu]. pose proof (Hu _ Hk' Hc'). subst k'. assert (r' = r) by congruence. subst r'.
          apply app_inv_tail in Eg. subst d'. exact IH.
    Qed.
    Lemma rstep_wf : productive rules -> forall t, well_founded (rstep t).
    Proof.
      intros Hp t g. constructor. intros g1 (Hn & d & k & r & Hr & Hk & -> & Hc & ->).
      destruct Hc as (r0 & Hr0 & Hv). assert (r0 = r) by congruence. subst r0.
      destruct (machine_cont Hp _ _ Hv Hk) as (r1 & d1 & z & E1 & E2 & E3 & E4). simpl in *. assert (r1 = r) by congruence. subst r1.
      rewrite firstn_all in E2. apply app_inv_tail in E2. subst d1. rewrite <- E3. apply (run_acc _ _ E4 eq_refl).
    Qed.
  End Det.
End Machine.

(** ** [parse] *)
Section Term.
  Context {N T E : Type} (tix : T -> nat).
  Variables (rules : list rule) (start ss : nat).
  Let rs := augment rules start ss.
  Let sr := length rules.
  Variable P : parser N T E.
  Let p := pr_tab P.
  Variable input : list T.
  Hypothesis Hss : ~ In ss (nonterminals rules).
  Hypothesis Heoi : no_eoi rules.
  Hypothesis Hcan : canonical rs sr p.
  Hypothesis Hgens : length (pr_gens P) = length rs.
  Hypothesis Hcf : conflict_free rs sr.
  Hypothesis Hnoerr : noerr rules.

  Notation invat := (inv_at tix rules start ss P input).
  Notation ends_in := (ends (parse_step tix P)).

  Lemma term_from : (forall t, well_founded (rstep rules start ss t)) -> forall n pos, length input - pos = n -> forall g, Acc (rstep rules start ss (la_at tix input pos)) g ->
    forall s ts, invat s g ts pos -> exists r, ends_in s r /\ r <> OutOfFuel.
  Proof.
    intros Hp. induction n as [n IHn] using (well_founded_induction lt_wf). intros pos Hn g Hacc.
    induction Hacc as [g _ IHg]. intros s ts Hinv.
    destruct (step_cases tix rules start ss P input Hss Heoi Hcan Hgens s g ts pos Hinv) as (d & Hd & Hc).
    destruct d as [[q|k|]|]; simpl in Hc.
    - destruct Hc as (_ & Hlt & s' & Hs & Hi). destruct (IHn (length input - S pos) ltac:(lia) (S pos) eq_refl (g ++ [TM (la_at tix input pos)])
        (Hp _ _) s' _ Hi) as (r & Hr & Hn0).
      exists r. split; auto. eapply reaches_ends; [apply reaches_step; eauto|eauto].
    - destruct Hc as [(r & Hr & _ & _ & _ & Hin)|(r & dd & ts1 & ts2 & args & gen & E1 & E2 & E3 & _ & E4 & E5 & E6 & E7 & E8 & E9)].
      { exfalso. apply (Hnoerr r); auto. eapply rs_rules; [|exact Hr]. simpl in Hd. tauto. }
      destruct (gen args) as [v|e|].
      + destruct E9 as (s' & Hs & Hi). simpl in Hd. destruct Hd as (_ & Hna & Hk & Hcm & _).
        destruct (IHg (dd ++ [NT (r_lhs r)])) with (s := s') (ts := ts1 ++ [Node k ts2]) as (x & Hx & Hn0); auto.
        * split; auto. exists dd, k, r. auto.
        * exists x. split; auto. eapply reaches_ends; [apply reaches_step; eauto|eauto].
      + destruct E9 as [it Hs]. eexists. split; [apply ends_step; eauto|discriminate].
      + eexists. split; [apply ends_step; eauto|discriminate].
    - destruct Hc as (_ & _ & _ & t & v & _ & _ & Hs). eexists. split; [apply ends_step; eauto|discriminate].
    - destruct Hc as [_ [(it & Hs & _)|(s' & _ & Hne & _)]]; [|tauto]. eexists. split; [apply ends_step; eauto|discriminate].
  Qed.

  Theorem parse_ends : (forall t, well_founded (rstep rules start ss t)) -> exists r, ends_in (ps_init P input) r /\ r <> OutOfFuel.
  Proof.
    intros Hp. apply (term_from Hp _ 0 eq_refl [] (Hp _ _) _ []).
    constructor; simpl; auto; try constructor; auto.
  Qed.

  (** ** Where errors are raised *)
  Definition words (l : list T) : list term := map (fun x => TSym (tix x)) l.

  (** every string that agrees with the input up to the lookahead leads the automaton to [g] *)
  Definition trk (g : list sym) (pos : nat) : Prop :=
    forall w, fst_of w TEoi = la_at tix input pos -> astar rules start ss ([], words (firstn pos input) ++ w) (g, w).

  Lemma words_snoc pos x : nth_error input pos = Some x -> words (firstn (S pos) input) = words (firstn pos input) ++ [TSym (tix x)].
  Proof.
    intros H. unfold words. change [TSym (tix x)] with (map (fun x => TSym (tix x)) [x]). rewrite <- map_app. f_equal.
    revert pos H. induction input as [|y l IH]; intros [|pos] H; simpl in *; try discriminate; [congruence|]. f_equal. auto.
  Qed.

  (** What a run without error rules comes to *)
  Definition stuck_at (it : list T) : Prop := exists pos g ts, pos <= length input /\ it = skipn (S pos) input /\ trk g pos /\
    twfs tix rs input g ts /\ flat_map leaves ts = seq 0 pos /\ (exists i, valid rs sr g i) /\ decides rs sr p g (la_at tix input pos) None.

  Lemma noerr_g g it : valid rs sr g it -> ~ In (TM TErr) g.
  Proof.
    intros Hv Hin. induction Hv as [|g k q b r X H IH Hr HX|]; auto. apply in_app_or in Hin as [Hin|[->|[]]]; auto.
    apply (noerr_wants rules start ss g Hnoerr). exists k, q, b, r. auto.
  Qed.

  Lemma stuck_from fuel : forall s g ts pos it, invat s g ts pos -> trk g pos ->
    loop (parse_step tix P) fuel s = Ok (RNotFound, it) -> stuck_at it.
  Proof.
    induction fuel as [|fuel IH]; intros s g ts pos it Hinv Ht Hl; [discriminate|]. simpl in Hl.
    destruct (step_cases tix rules start ss P input Hss Heoi Hcan Hgens s g ts pos Hinv) as (d & Hd & Hc).
    destruct d as [[q|k|]|]; simpl in Hc.
    - destruct Hc as (_ & Hlt & s' & Hs & Hi). rewrite Hs in Hl. eapply IH; [exact Hi| |exact Hl].
      intros w Hw. destruct (nth_error input pos) as [x|] eqn:Ex; [|apply nth_error_None in Ex; lia].
      assert (Hla : la_at tix input pos = TSym (tix x)) by (unfold la_at; rewrite Ex; auto).
      rewrite (words_snoc _ _ Ex), <- app_assoc. simpl. eapply astar_trans; [apply Ht; simpl; auto|].
      rewrite Hla. apply astar_one. simpl in Hd. rewrite Hla in Hd. constructor. apply Hd.
    - destruct Hc as [(r & Hr & _ & _ & _ & Hin)|(r & dd & ts1 & ts2 & args & gen & E1 & E2 & E3 & _ & E4 & E5 & E6 & E7 & E8 & E9)].
      { exfalso. apply (Hnoerr r); auto. eapply rs_rules; [|exact Hr]. simpl in Hd. tauto. }
      destruct (gen args) as [v|e|].
      + destruct E9 as (s' & Hs & Hi). rewrite Hs in Hl. eapply IH; [exact Hi| |exact Hl].
        simpl in Hd. destruct Hd as (_ & Hna & Hk & Hcm & _). intros w Hw. eapply astar_trans; [apply Ht; auto|]. apply astar_one. subst g.
        econstructor; eauto. rewrite Hw. auto.
      + destruct E9 as [it' Hs]. rewrite Hs in Hl. discriminate.
      + rewrite E9 in Hl. discriminate.
    - destruct Hc as (_ & _ & _ & t & v & _ & _ & Hs). rewrite Hs in Hl. discriminate.
    - destruct Hc as [_ [(it' & Hs & Hit)|(s' & _ & Hne & _)]]; [|tauto]. rewrite Hs in Hl. injection Hl as <-.
      exists pos, g, ts. pose proof (inv_pos _ _ _ _ _ _ _ _ _ _ Hinv) as Hpos. pose proof (inv_input _ _ _ _ _ _ _ _ _ _ Hinv) as Hin.
      assert (Hv : exists i, valid rs sr g i).
      { apply (can_state _ _ _ Hcan). exists (ps_state s). apply (inv_state _ _ _ _ _ _ _ _ _ _ Hinv). }
      split; [rewrite Hin, app_length; lia|]. split; [auto|]. split; auto.
      split; [|split; [apply (inv_noerr _ _ _ _ _ _ _ _ _ _ Hinv Hnoerr)|split; auto]].
      destruct Hv as [i Hv]. refine (inv_twfs _ _ _ _ _ _ _ _ _ _ _ _ Hinv); auto. right. eapply noerr_g; eauto.
  Qed.

  Lemma notfound_stuck fuel it : parse_full tix P fuel input = Ok (RNotFound, it) -> stuck_at it.
  Proof.
    intros H. eapply (stuck_from fuel (ps_init P input) [] [] 0 it); [| |exact H].
    - constructor; simpl; auto; try constructor; auto.
    - intros w _. constructor.
  Qed.

  Lemma stuck_step g w : decides rs sr p g (fst_of w TEoi) None -> forall c, ~ astep rules start ss (g, w) c.
  Proof.
    intros (H1 & H2 & H3) c Hs. inversion Hs; subst; simpl in *; auto. eapply H3; eauto.
  Qed.

  (** no continuation of what was read is in the language *)
  Lemma stuck_not_prefix pos g : trk g pos -> pos < length input -> decides rs sr p g (la_at tix input pos) None ->
    forall z, ~ der rules (NT start) (words (firstn (S pos) input) ++ z).
  Proof.
    intros Ht Hlt Hd z Hder. destruct (nth_error input pos) as [x|] eqn:Ex; [|apply nth_error_None in Ex; lia].
    assert (Hla : la_at tix input pos = TSym (tix x)) by (unfold la_at; rewrite Ex; auto).
    rewrite (words_snoc _ _ Ex), <- app_assoc in Hder. simpl in Hder.
    pose proof (machine_word rules start ss _ Hder) as M. pose proof (Ht (TSym (tix x) :: z) ltac:(simpl; auto)) as M'.
    destruct (astar_det rules start ss Hcf _ _ _ M M') as [D|D].
    - apply astar_len in D. simpl in D. lia.
    - inversion D as [c Ec|c c1 c2 Hs _]; subst. eapply stuck_step; [|exact Hs]. simpl. rewrite <- Hla. exact Hd.
  Qed.

  Lemma tok_seq n : n <= length input -> map (tok tix input) (seq 0 n) = words (firstn n input).
  Proof.
    induction n as [|n IH]; intros Hn; [reflexivity|]. rewrite seq_S, map_app, IH by lia. simpl.
    destruct (nth_error input n) as [x|] eqn:Ex; [|apply nth_error_None in Ex; lia].
    change (match input with [] => [] | a :: l => a :: firstn n l end) with (firstn (S n) input). rewrite (words_snoc _ _ Ex). unfold tok. rewrite Ex. reflexivity.
  Qed.

  (** what was read before the error is the beginning of a string of the language *)
  Lemma stuck_viable pos g ts : productive rules -> (exists w, der rules (NT start) w) -> pos <= length input ->
    twfs tix rs input g ts -> flat_map leaves ts = seq 0 pos -> (exists i, valid rs sr g i) ->
    exists z, der rules (NT start) (words (firstn pos input) ++ z).
  Proof.
    intros Hp [w0 Hw0] Hpos Hts Hlv [it Hv].
    assert (Hne : ~ In (TM TErr) g) by (eapply noerr_g; eauto).
    assert (Hcl : forallb clean ts = true).
    { apply (proj2 (noerr_clean tix rs input ltac:(intros r Hr; destruct (in_app_or _ _ _ Hr) as [H1|[<-|[]]]; [apply Hnoerr; auto|simpl; intros [H2|[]]; discriminate])) _ _ Hts Hne). }
    pose proof (proj2 (tree_der tix rs input) _ _ Hts Hcl) as Hd. rewrite Hlv, tok_seq in Hd by auto.
    destruct (valid_rewr rules start ss Hss Heoi _ _ Hv) as (r & Hr & z & _ & _ & Hz & Hcase).
    destruct (Nat.eq_dec (i_rule it) sr) as [Ek|Ek].
    - pose proof (start_items rules start ss Hss _ _ Hv Ek) as Eg. destruct (i_pos it) as [|q].
      + simpl in Eg. subst g. inversion Hd; subst. exists w0. exact Hw0.
      + assert (Eg' : g = [NT start]) by (rewrite Eg; simpl; destruct q; auto). rewrite Eg' in Hd. apply ders_one in Hd.
        exists []. rewrite app_nil_r. apply (der_aug rules start ss Hss). exact Hd.
    - destruct Hcase as [Hc|(r0 & A1 & A2 & A3)]; [exfalso; apply Ek; exact Hc|].
      assert (Hir : In r rules) by (rewrite augment_old in Hr by auto; eapply nth_error_In; eauto).
      destruct (ders_all rules (skipn (i_pos it) (r_rhs r) ++ z)) as [v Hvv].
      { intros X HX. apply in_app_or in HX as [HX|HX].
        - apply (Hp r); auto. rewrite <- (firstn_skipn (i_pos it) (r_rhs r)). apply in_or_app. auto.
        - destruct (Hz X HX) as (r' & B1 & B2). apply (Hp r'); auto. }
      exists v. apply (der_aug rules start ss Hss). replace (NT start) with (NT (r_lhs r0)) by congruence. constructor; [apply aug_incl; auto|].
      eapply rewr_ders; [exact A3|]. apply ders_app; auto. apply (der_incl rules _ (aug_incl rules start ss)). exact Hvv.
  Qed.
End Term.
