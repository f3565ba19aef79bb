(** * Which tokens reach a reducer, when nonterminals can have no recorded start *)
From Coq Require Import List Arith Lia Bool Sorted.
From Verif Require Import Lib Grammar LrModel LrSpec LrSets LrStates LrNew LrTop LrMono ParseModel Trees ParseSpec ParseInv ParseTop ParseMore ParseCover.
Import ListNotations.

(** [floats rs A]: a rule of [A] can be completed without a first token: nothing but error symbols on its right-hand side,
    or nothing but error symbols in front of a nonterminal of this kind.  The start recorded for such a nonterminal is
    the number of tokens read so far (parser/src/iter.rs:75-82). *)
Inductive floats (rs : list rule) : nat -> Prop :=
| floats_none r : In r rs -> Forall (eq (TM TErr)) (r_rhs r) -> floats rs (r_lhs r)
| floats_first r es B rest : In r rs -> r_rhs r = es ++ NT B :: rest -> Forall (eq (TM TErr)) es -> floats rs B -> floats rs (r_lhs r).

Section Float.
  Context {N T E : Type} (tix : T -> nat).
  Variables (s : syntax N T E) (P : parser N T E) (ws : list warning) (ss : nat) (w : list T).
  Hypothesis Hm : made s P ws ss.
  Notation invat := (inv_at tix (gram s) (sx_start s) ss P w).
  Notation step := (parse_step tix P).
  Notation stk' := (stk tix (gram s) (sx_start s) ss P w).
  Notation ent' := (ent tix (gram s) (sx_start s) ss P w).
  Notation ents' := (ents tix (gram s) (sx_start s) ss P w).
  Let p := pr_tab P.
  Let rs := augment (gram s) (sx_start s) ss.
  Let sr := length (gram s).

  Definition flt (t : tree) : Prop := match t with Node k _ => exists r, nth_error rs k = Some r /\ floats (gram s) (r_lhs r) | _ => False end.
  Definition zip (es : list (entry N)) (ts : list tree) : list (entry N * tree) := combine es (rev ts).
  Definition fdesc (zs : list (entry N * tree)) : Prop := StronglySorted (fun a b => ~ flt (snd b) -> key (fst b) <= key (fst a)) zs.
  Definition flow (pos : nat) (zs : list (entry N * tree)) : Prop := Forall (fun z => ~ flt (snd z) -> key (fst z) <= pos) zs.

  Lemma combine_app {A B} (l1 l2 : list A) (m1 m2 : list B) : length l1 = length m1 -> combine (l1 ++ l2) (m1 ++ m2) = combine l1 m1 ++ combine l2 m2.
  Proof. revert m1. induction l1 as [|a l1 IH]; intros [|b m1] H; try discriminate; auto. cbn [combine app]. f_equal. apply IH. auto. Qed.
  Lemma zip_app es1 es2 ts1 ts2 : length es1 = length ts2 -> zip (es1 ++ es2) (ts1 ++ ts2) = zip es1 ts2 ++ zip es2 ts1.
  Proof. intros H. unfold zip. rewrite rev_app_distr. apply combine_app. rewrite rev_length. auto. Qed.
  Lemma zip_cons e es ts t : zip (e :: es) (ts ++ [t]) = (e, t) :: zip es ts.
  Proof. unfold zip. rewrite rev_app_distr. reflexivity. Qed.

  (** trees tell the symbols of the stack *)
  Lemma ent_sym n n' e X X' t : ent' n e X t -> ent' n' e X' t -> X = X'.
  Proof.
    destruct e as [v i|k i|lo hi|]; simpl.
    - intros ((A & ->) & H & _) ((B & ->) & H' & _). inversion H; subst. inversion H'; subst. congruence.
    - intros [-> _] [-> _]. auto.
    - intros [-> _] [-> _]. auto.
    - tauto.
  Qed.
  Lemma stk_same n n' st : forall g g' ts, stk' n st g ts -> stk' n' st g' ts -> g = g'.
  Proof.
    induction st as [|[q e] st IH]; intros g g' ts H H'; inversion H as [|? g0 ts0 ? ? X t H1 _ He _]; subst; inversion H' as [|? g1 ts1 ? ? X' t' H1' _ He' _ Ha Hb Hc]; subst; auto.
    apply app_inj_tail in Hc as [-> ->]. f_equal; [eapply IH; eauto|]. f_equal. eapply ent_sym; eauto.
  Qed.
  Lemma stk_top n q e st g ts : stk' n ((q, e) :: st) g ts -> exists g0 X ts0 t, g = g0 ++ [X] /\ ts = ts0 ++ [t] /\ stk' n st g0 ts0 /\ ent' n e X t.
  Proof. intros H. inversion H as [|? g0 ts0 ? ? X t H1 _ He _]; subst. eauto 10. Qed.

  Lemma stk_lens n st g ts : stk' n st g ts -> length st = length g /\ length st = length ts.
  Proof. apply stk_len. apply (md_len _ _ _ _ Hm). Qed.

  (** what is recorded for a nonterminal *)
  Lemma first_of n l es ts d : ents' n l es ts ->
    (first_index es d = d /\ Forall (eq (TM TErr)) l) \/
    (exists b X t, In (b, t) (combine es ts) /\ ent' n b X t /\ key b = first_index es d /\ exists er rest, l = er ++ X :: rest /\ Forall (eq (TM TErr)) er /\ X <> TM TErr).
  Proof.
    induction 1 as [|X l e es t ts He Hes IH]; [left; split; [reflexivity|constructor]|]. destruct e as [v i|k i|lo hi|].
    - right. exists (ENon v i), X, t. split; [left; auto|]. split; [auto|]. split; [reflexivity|]. exists [], l. split; [reflexivity|]. split; [constructor|]. destruct He as ((A & ->) & _). discriminate.
    - right. exists (ETok k i), X, t. split; [left; auto|]. split; [auto|]. split; [reflexivity|]. exists [], l. split; [reflexivity|]. split; [constructor|]. destruct He as (-> & _). discriminate.
    - pose proof (proj1 He) as ->. cbn [first_index]. destruct IH as [[H1 H2]|(b & X & t' & H1 & H2 & H3 & er & rest & -> & H4 & H5)].
      + left. split; [auto|constructor; auto].
      + right. exists b, X, t'. split; [right; auto|]. split; [auto|]. split; [auto|]. exists (TM TErr :: er), rest. split; [reflexivity|]. split; [constructor; auto|auto].
    - destruct He.
  Qed.
  Lemma ent_flt n e X t : ent' n e X t -> flt t -> exists A, X = NT A /\ floats (gram s) A.
  Proof.
    destruct e as [v i|k i|lo hi|]; simpl.
    - intros ((A & ->) & H & _) Hf. inversion H; subst. destruct Hf as (r' & Hr & Hf). assert (r' = r) by (unfold rs in Hr; congruence). subst. eauto.
    - intros (-> & -> & _) [].
    - intros (-> & -> & _) [].
    - tauto.
  Qed.
  Lemma flt_ent n e A t : ent' n e (NT A) t -> ~ floats (gram s) A -> ~ flt t.
  Proof. intros H Hf Ht. destruct (ent_flt _ _ _ _ H Ht) as (B & HB & Hf'). injection HB as ->. auto. Qed.

  (** popping during recovery *)
  Lemma fold_from (es : list (entry N)) : forall h e, let he := fold_left upd es (h, e) in
    (fst he = h \/ exists x, In x es /\ key x = fst he) /\ (snd he = e \/ exists x, In x es /\ key x = snd he).
  Proof.
    induction es as [|x es IH]; intros h e; [split; left; reflexivity|]. cbv zeta in *. cbn [fold_left].
    rewrite (surjective_pairing (upd (h, e) x)). destruct (IH (fst (upd (h, e) x)) (snd (upd (h, e) x))) as [H1 H2].
    split; [destruct H1 as [H1|(y & Hy & H1)]|destruct H2 as [H2|(y & Hy & H2)]]; try (right; exists y; split; [right; auto|auto]; fail).
    - rewrite H1. destruct x; cbn [upd fst snd]; auto; right; eexists; (split; [left; reflexivity|reflexivity]).
    - rewrite H2. destruct x; cbn [upd fst snd]; auto; right; eexists; (split; [left; reflexivity|reflexivity]).
  Qed.

  (** ** The invariant *)
  Record fcov (C : list (nat * nat)) (st : pstate N T) (pos : nat) : Prop := {
    fcov_at : exists g ts, invat st g ts pos /\ (~ at_end st -> fdesc (zip (map snd (ps_stack st)) ts) /\ flow pos (zip (map snd (ps_stack st)) ts)) /\
      (forall q v i st0, ps_stack st = (q, ENon v i) :: st0 -> exists k r dd, g = dd ++ [NT (r_lhs r)] /\ nth_error rs k = Some r /\ k <> sr /\ valid rs sr dd (mk_item k 0 (la_at tix w pos)));
    fcov_all : forall i, i < pos -> exists lh, In lh (C ++ flat_map piece (map snd (ps_stack st))) /\ inside i lh }.

  (** where recovery can start, such a nonterminal can come only if nothing can come behind it *)
  Hypothesis Hfl : forall g A X, wants rs sr g (TM TErr) -> floats (gram s) A -> ~ wants rs sr (g ++ [NT A]) X.

  Lemma start_la g it : valid rs sr g it -> i_rule it = sr -> i_la it = TEoi.
  Proof. intros H. apply (start_item_la (gram s) (sx_start s) ss (md_fresh _ _ _ _ Hm) g it H). Qed.
  (** a nonterminal behind which nothing can come is followed by what its reduction has seen *)
  Lemma last_decides g k r t : nth_error rs k = Some r -> k <> sr -> valid rs sr g (mk_item k 0 t) -> t <> TEoi -> (forall X, ~ wants rs sr (g ++ [NT (r_lhs r)]) X) ->
    ~ decides rs sr p (g ++ [NT (r_lhs r)]) t None.
  Proof.
    intros Hr Hk Hv Ht Hno (_ & _ & Hd). remember (mk_item k 0 t) as it eqn:Eit. destruct Hv as [|g0 k0 p0 la r0 X H Hr0 Hp0|g0 k0 p0 la r0 A k' r' t' H Hr0 Hp0 Hr' HA Hf]; [injection Eit; congruence|discriminate|injection Eit as -> ->].
    assert (r' = r) by congruence. subst r' A. pose proof (valid_goto _ _ _ _ _ _ _ _ H Hr0 Hp0) as Hg.
    destruct (nth_error (r_rhs r0) (S p0)) as [Y|] eqn:EY; [apply (Hno Y); exists k0, (S p0), la, r0; auto|].
    apply nth_error_None in EY. rewrite skipn_all2 in Hf by auto. apply firsts_firstl in Hf. assert (t = la) by (inversion Hf as [| |? ? ? Hx]; subst; auto; inversion Hx). subst la.
    assert (El : S p0 = length (r_rhs r0)) by (apply nth_error_Some_lt in Hp0; lia).
    destruct (Nat.eq_dec k0 sr) as [->|Hk0]; [apply Ht; apply (start_la _ _ H eq_refl)|]. apply (Hd k0 Hk0). exists r0. split; auto. rewrite <- El. exact Hg.
  Qed.

  Lemma in_zip_l e t es ts : In (e, t) (zip es ts) -> In e es.
  Proof. apply in_combine_l. Qed.
  Lemma in_zip n l es : forall ts x, ents' n l (rev es) ts -> In x es -> exists t, In (x, t) (zip es ts).
  Proof.
    intros ts x H Hx. assert (Hl : length (rev es) = length ts) by (clear - H; remember (rev es) as e0 eqn:E0; clear E0; induction H; simpl; auto). rewrite rev_length in Hl. unfold zip.
    apply In_nth_error in Hx as [i Hi]. assert (Hi' := nth_error_Some_lt _ _ _ Hi). destruct (nth_error (rev ts) i) as [t|] eqn:Et.
    - exists t. clear - Hi Et. revert i Hi Et. generalize (rev ts) as m. induction es as [|a es IH]; intros [|b m] [|i] Hi Et; try discriminate; simpl in *; [left; congruence|right; eauto].
    - apply nth_error_None in Et. rewrite rev_length in Et. lia.
  Qed.
  Lemma combine_rev {A B} (l : list A) (m : list B) : length l = length m -> combine (rev l) (rev m) = rev (combine l m).
  Proof.
    revert m. induction l as [|a l IH]; intros [|b m] H; try discriminate; auto. simpl. rewrite combine_app by (rewrite !rev_length; auto). rewrite IH by auto. reflexivity.
  Qed.
  Lemma ents_len n l es ts : ents' n l es ts -> length l = length es /\ length es = length ts.
  Proof. induction 1; simpl; lia. Qed.

  Lemma fcov_step C st pos st' : fcov C st pos -> step st = inl st' -> exists pos', fcov (C ++ step_uses tix P st) st' pos'.
  Proof.
    intros [(g & ts & Hinv & Hdesc & Htop) Hall] Hs. destruct (step_shape tix P st st' Hs) as [Hsh Hsyms].
    assert (Hnext : exists g' ts' pos', invat st' g' ts' pos' /\
      (ts' = ts ++ [Leaf pos] \/
       (exists k r dd ts1 ts2, nth_error rs k = Some r /\ k <> sr /\ g = dd ++ r_rhs r /\ ts = ts1 ++ ts2 /\ length ts1 = length dd /\ ts' = ts1 ++ [Node k ts2] /\ g' = dd ++ [NT (r_lhs r)] /\ valid rs sr dd (mk_item k 0 (la_at tix w pos))) \/
       (exists g0 ts0 ts2 lo hi, ts = ts0 ++ ts2 /\ wants rs sr g0 (TM TErr) /\ g' = g0 ++ [TM TErr] /\ ts' = ts0 ++ [Bad lo hi] /\ decides rs sr p g (la_at tix w pos) None))).
    { destruct (cases tix s P ws ss w Hm _ _ _ _ Hinv) as (d & Hdec & Hc). destruct d as [[q|k|]|]; cbn [step_case] in Hc.
      - destruct Hc as (_ & _ & s' & Hs' & Hi). rewrite Hs in Hs'. injection Hs' as <-. eauto 10.
      - destruct Hdec as (_ & _ & Hk & Hcp & _).
        destruct Hc as [(r & _ & _ & Hx & _)|(r & dd & ts1 & ts2 & args & gen & Hr & Hg & _ & _ & Hts & Hl & _ & _ & _ & Hc)]; [congruence|].
        destruct (gen args) as [v|e|]; [destruct Hc as (s' & Hs' & Hi)|destruct Hc as [it Hc]|]; try congruence. rewrite Hs in Hs'. injection Hs' as <-.
        do 3 eexists. split; [exact Hi|]. right. left. exists k, r, dd, ts1, ts2. destruct (complete_split _ _ g k _ (Hsr (gram s) (sx_start s) ss) Hcp Hk) as (r' & d & Hr' & Eg & _ & Hv).
        assert (r' = r) by congruence. subst r'. rewrite Hg in Eg. apply app_inv_tail in Eg. subst d. auto 12.
      - destruct Hc as (_ & _ & _ & t & v & _ & _ & Hx). congruence.
      - destruct Hc as (_ & [(it & Hx & _)|(s' & Hs' & _ & g' & ts' & ts2 & lo & hi & pos' & Hts & Hw & _ & _ & _ & Hi)]); [congruence|]. rewrite Hs in Hs'. injection Hs' as <-.
        do 3 eexists. split; [exact Hi|]. right. right. exists g', ts', ts2, lo, hi. auto 10. }
    destruct Hnext as (g' & ts' & pos' & Hinv' & Hlink). exists pos'.
    destruct (read_inv tix _ _ _ _ _ (md_len _ _ _ _ Hm) _ _ _ _ Hinv) as [Hread (t0 & i0 & buf0 & Eb0 & Hla)].
    assert (Hend : ~ at_end (ps_read tix st) -> ~ at_end st).
    { intros Hn He. apply Hn. unfold at_end, ps_read in *. rewrite He. auto. }
    pose proof (inv_pos _ _ _ _ _ _ _ _ _ _ Hread) as Hpos. pose proof (inv_pos _ _ _ _ _ _ _ _ _ _ Hinv') as Hpos'. rewrite Hsyms in Hpos'.
    assert (Hlen : ~ at_end st' -> length (ps_buf st') = length (ps_syms (ps_read tix st)) - pos') by (intros Hn; rewrite <- Hsyms; eapply pos_buf; eauto).
    assert (Hlen0 : ~ at_end (ps_read tix st) -> length (ps_buf (ps_read tix st)) = length (ps_syms (ps_read tix st)) - pos) by (intros Hn; eapply pos_buf; eauto).
    pose proof (inv_stk _ _ _ _ _ _ _ _ _ _ Hinv) as Hstk. pose proof (inv_stk _ _ _ _ _ _ _ _ _ _ Hinv') as Hstk'.
    destruct (stk_ents tix s P ss w _ _ _ _ Hstk) as [Hne Hlh].
    destruct Hsh as [k i buf Eb Est Ebf Eu|i buf Eb [q Hq]|t i buf k r q v Eb Ea Er Hl Est Ebf Eu|t i buf cur stk1 rc back head ehead pb Eb Ea Erec Epb Est Ebf Eu].
    - (* shift *)
      rewrite Eb in Eb0. injection Eb0 as <- <- <-. destruct Hla as [(x & Hx & _ & -> & Hlt & Ebuf)|(Hx & _)]; [|discriminate].
      assert (Hn : ~ at_end (ps_read tix st)) by (unfold at_end; rewrite Eb; discriminate).
      assert (Hn' : ~ at_end st').
      { unfold at_end. rewrite Ebf, Ebuf. destruct (skipn (S pos) (ps_syms (ps_read tix st))); discriminate. }
      assert (Ep : pos' = S pos) by (specialize (Hlen Hn'); specialize (Hlen0 Hn); rewrite Ebf in Hlen; rewrite Eb in Hlen0; simpl in Hlen0; lia). subst pos'.
      assert (Hts : ts' = ts ++ [Leaf pos]).
      { rewrite Est in Hstk'. apply stk_top in Hstk' as (g1 & X1 & ts1 & t1 & _ & E1 & _ & He). destruct He as (_ & -> & _).
        destruct Hlink as [Hx1|[(k0 & r0 & dd & ta & tb & _ & _ & _ & _ & _ & Hx1 & _)|(g0 & ta & tb & lo & hi & _ & _ & _ & Hx1 & _)]]; auto; rewrite Hx1 in E1; apply app_inj_tail in E1 as [_ E1]; discriminate. }
      destruct (Hdesc (Hend Hn)) as [D1 D2]. constructor.
      + exists g', ts'. split; [auto|]. split; [|rewrite Est; discriminate]. intros _. rewrite Est, Hts. cbn [map snd]. rewrite zip_cons. split.
        * constructor; [auto|]. unfold flow in D2. eapply Forall_impl; [|exact D2]. auto.
        * constructor; [simpl; lia|]. eapply Forall_impl; [|exact D2]. simpl. intros z Hz Hf. specialize (Hz Hf). lia.
      + intros j Hj. rewrite Est, Eu, app_nil_r. cbn [map snd flat_map piece]. destruct (Nat.eq_dec j pos) as [->|Hjp].
        * exists (pos, pos). split; [apply in_or_app; right; left; auto|]. unfold inside. simpl. lia.
        * destruct (Hall j ltac:(lia)) as (lh & Hin & Hi). exists lh. split; auto. apply in_app_or in Hin. apply in_or_app. destruct Hin; [auto|right; right; auto].
    - exfalso. rewrite Eb in Eb0. injection Eb0 as <- <- <-. pose proof (inv_state _ _ _ _ _ _ _ _ _ _ Hread) as Hstate.
      destruct (act_state (gram s) (sx_start s) ss P (md_can _ _ _ _ Hm) g _ TEoi Hstate) as (d & Hd & Hdec). rewrite Hd in Hq. injection Hq as ->.
      destruct Hdec as [Hw _]. exact (wants_no_eoi _ _ _ (md_eoi _ _ _ _ Hm) _ Hw).
    - (* reduce *)
      rewrite Eb in Eb0. injection Eb0 as <- <- <-.
      assert (Ep : pos' = pos).
      { destruct Hla as [(x & Hx & Ht & -> & Hlt & Ebuf)|(Ht & -> & Hp & -> & Hit & Hl0)].
        - assert (Hn : ~ at_end (ps_read tix st)) by (unfold at_end; rewrite Eb, Ht; discriminate).
          assert (Hn' : ~ at_end st') by (unfold at_end; rewrite Ebf; exact Hn). specialize (Hlen Hn'). specialize (Hlen0 Hn). rewrite Ebf in Hlen. lia.
        - assert (Hn' : at_end st') by (unfold at_end; rewrite Ebf, Eb, Ht; reflexivity). destruct (inv_buf _ _ _ _ _ _ _ _ _ _ Hinv') as [Hx|(_ & _ & Hx)]; [|rewrite Hx, Hsyms, Hp; auto].
          unfold at_end in Hn'. rewrite Hn' in Hx. destruct (skipn pos' (ps_syms st')); discriminate. }
      subst pos'. constructor.
      + rewrite Est in Hstk'. apply stk_top in Hstk' as (g1 & X1 & ts1 & t1 & _ & E1 & Hst1 & He1).
        assert (HL : exists k r dd ts2, nth_error rs k = Some r /\ k <> sr /\ g = dd ++ r_rhs r /\ ts = ts1 ++ ts2 /\ length ts1 = length dd /\ t1 = Node k ts2 /\ g' = dd ++ [NT (r_lhs r)] /\ valid rs sr dd (mk_item k 0 (la_at tix w pos))).
        { destruct Hlink as [Hx1|[(k0 & r0 & dd & ta & tb & A1 & A2 & A3 & A4 & A5 & Hx1 & A6 & A7)|(g0 & ta & tb & lo & hi & _ & _ & _ & Hx1 & _)]]; rewrite Hx1 in E1; apply app_inj_tail in E1 as [E1 E2].
          - subst t1. destruct He1 as ((A & ->) & He1 & _). inversion He1.
          - subst ta t1. exists k0, r0, dd, tb. auto 12.
          - subst t1. destruct He1 as ((A & ->) & He1 & _). inversion He1. }
        clear Hlink. destruct HL as (k2 & r2 & dd & ts2 & Hr2 & Hk2 & Hg & Hts & Hl1 & -> & Hg' & Hv2).
        exists g', ts'. split; [auto|]. split; [|intros; exists k2, r2, dd; auto].
        intros Hn'. assert (Hn : ~ at_end (ps_read tix st)) by (unfold at_end in *; rewrite <- Ebf; exact Hn'). destruct (Hdesc (Hend Hn)) as [D1 D2].
        assert (Elen : length (r_rhs r) = length (r_rhs r2)).
        { destruct (stk_lens _ _ _ _ Hst1) as [_ L1]. destruct (stk_lens _ _ _ _ Hstk) as [L2 L3]. rewrite skipn_length in L1. rewrite Hg, app_length in L2. lia. }
        rewrite Elen in *. pose proof Hstk as Hstk0. rewrite Hg in Hstk0. destruct (stk_pop tix _ _ _ _ _ (md_len _ _ _ _ Hm) _ _ _ _ _ Hstk0) as (_ & ta & tb & Ets & Hsk & Hents & _).
        assert (Hab : ta = ts1 /\ tb = ts2).
        { destruct (stk_lens _ _ _ _ Hsk) as [L1 L2]. rewrite Hts in Ets. apply app_eq_app in Ets as (l & [[E2 E3]|[E2 E3]]); subst; rewrite app_length in *; assert (l = []) by (apply length_zero_iff_nil; lia); subst l; rewrite ?app_nil_r; auto. }
        destruct Hab as [-> ->]. clear Ets.
        set (top := firstn (length (r_rhs r2)) (ps_stack st)) in *. set (rest := skipn (length (r_rhs r2)) (ps_stack st)) in *.
        assert (Etr : ps_stack st = top ++ rest) by (symmetry; apply firstn_skipn).
        rewrite Etr, map_app, Hts in D1, D2. destruct (ents_len _ _ _ _ Hents) as [Le1 Le2]. rewrite map_length, rev_length in Le1, Le2. rewrite zip_app in D1, D2 by (rewrite map_length; auto).
        destruct (SS_app _ _ _ D1) as [D1b D1c]. unfold flow in D2. apply Forall_app in D2 as [D2a D2b]. rewrite Forall_forall in D2a.
        rewrite Est, E1. cbn [map snd]. rewrite zip_cons. cbn [map]. rewrite map_rev in Hents |- *.
        assert (Hcz : forall b t', In (b, t') (combine (rev (map snd top)) ts2) -> In (b, t') (zip (map snd top) ts2)).
        { intros b t' Hb. unfold zip. rewrite <- (rev_involutive (map snd top)), combine_rev by (rewrite rev_length, map_length; lia). apply -> in_rev. auto. }
        destruct (first_of _ _ _ _ (length (ps_syms (ps_read tix st))) Hents) as [[F1 F2]|(b & X & t' & B1 & B2 & B3 & er & rst & B4 & B5 & B6)].
        * (* no token *)
          rewrite F1. split.
          -- constructor; [auto|]. apply Forall_forall. intros z Hz Hf. rewrite Forall_forall in D2b. specialize (D2b z Hz Hf). cbn [fst key]. lia.
          -- constructor; [|auto]. cbn [snd fst]. intros Hf. exfalso. apply Hf. exists r2. split; auto. apply floats_none; auto. eapply nth_error_In. apply (rule_old s ss k2); eauto.
        * rewrite <- B3. apply Hcz in B1. split.
          -- constructor; [auto|]. apply Forall_forall. intros z Hz Hf. cbn [fst key]. apply (D1c (b, t') z); auto.
          -- constructor; [|auto]. cbn [snd fst key]. intros Hf. apply (D2a (b, t')); auto. cbn [snd]. intros Hft. destruct (ent_flt _ _ _ _ B2 Hft) as (A & -> & HA). apply Hf. exists r2. split; auto.
             eapply floats_first; eauto. eapply nth_error_In. apply (rule_old s ss k2); eauto.
      + intros j Hj. destruct (Hall j Hj) as (lh & Hin & Hi). exists lh. split; auto. rewrite Eu, Est. cbn [map snd flat_map piece]. rewrite <- (firstn_skipn (length (r_rhs r)) (ps_stack st)) in Hin at 1.
        rewrite map_app, flat_map_app in Hin. rewrite !in_app_iff in *. destruct Hin as [Hin|[Hin|Hin]]; [auto| |auto]. left. right.
        apply in_flat_map in Hin as (y & Hy & Hin). apply in_flat_map. exists y. split; auto. rewrite map_rev. apply -> in_rev. auto.
    - (* recovery *)
      rewrite Eb in Eb0. injection Eb0 as <- <- <-. destruct (recover_pops P _ _ _ _ _ _ _ _ _ _ _ _ _ Erec) as (popped & Epop & Hf & Hb1 & Hb2).
      rewrite Est in Hstk'. apply stk_top in Hstk' as (g1 & X1 & ts1 & t1 & Eg1 & E1 & Hst1 & He1).
      assert (HL : exists ts2 lo hi, ts = ts1 ++ ts2 /\ wants rs sr g1 (TM TErr) /\ t1 = Bad lo hi /\ decides rs sr p g (la_at tix w pos) None).
      { pose proof He1 as (-> & -> & _).
        destruct Hlink as [Hx1|[(k0 & r0 & dd & ta & tb & A1 & A2 & A3 & A4 & A5 & Hx1 & _)|(g0 & ta & tb & lo & hi & A1 & A2 & A3 & Hx1 & A4)]]; rewrite Hx1 in E1; apply app_inj_tail in E1 as [E1 E2]; try discriminate.
        subst ta. rewrite A3 in Eg1. apply app_inj_tail in Eg1 as [-> _]. eauto 12. }
      clear Hlink. destruct HL as (ts2 & lo1 & hi1 & Hts & Hw & -> & Hdec).
      destruct Hla as [(x & Hx & Ht & -> & Hlt & Ebuf)|(Ht & -> & Hp & -> & Hit & Hl0)].
      + assert (Hn : ~ at_end (ps_read tix st)) by (unfold at_end; rewrite Eb, Ht; discriminate). destruct (Hdesc (Hend Hn)) as [D1 D2]. specialize (Hlen0 Hn). rewrite Eb in Hlen0. cbn [length] in Hlen0.
        destruct (stk_lens _ _ _ _ Hst1) as [L1 L2]. destruct (stk_lens _ _ _ _ Hstk) as [L3 L4]. rewrite Epop, app_length in L3. rewrite Epop, Hts, !app_length in L4.
        assert (Lp : length (map snd popped) = length ts2) by (rewrite map_length; lia).
        pose proof D1 as D1'. pose proof D2 as D2'. rewrite Epop, map_app, Hts, zip_app in D1', D2' by auto. destruct (SS_app _ _ _ D1') as [D1b D1c]. unfold flow in D2'. apply Forall_app in D2' as [D2a D2b]. rewrite Forall_forall in D2a, D2b.
        (* the symbols that are popped *)
        assert (Hg : exists g2, g = g1 ++ g2 /\ length g2 = length popped /\ ents' (length (ps_syms st)) g2 (rev (map snd popped)) ts2).
        { pose proof Hstk as Hstk0. rewrite <- (firstn_skipn (length g - length popped) g) in Hstk0. set (ga := firstn (length g - length popped) g) in *. set (gb := skipn (length g - length popped) g) in *.
          assert (Lb : length gb = length popped) by (unfold gb; rewrite skipn_length; lia).
          destruct (stk_pop tix _ _ _ _ _ (md_len _ _ _ _ Hm) _ _ _ _ _ Hstk0) as (_ & ta & tb & Ets & Hsk & Hents & _). rewrite Lb, Epop in Hsk, Hents.
          rewrite skipn_app, skipn_all, Nat.sub_diag in Hsk. cbn [skipn app] in Hsk. rewrite firstn_app, firstn_all, Nat.sub_diag in Hents. cbn [firstn] in Hents. rewrite app_nil_r, map_rev in Hents.
          destruct (stk_lens _ _ _ _ Hsk) as [_ La].
          assert (Hab : ta = ts1 /\ tb = ts2).
          { rewrite Hts in Ets. apply app_eq_app in Ets as (l & [[E2 E3]|[E2 E3]]); subst; rewrite app_length in *; assert (l = []) by (apply length_zero_iff_nil; lia); subst l; rewrite ?app_nil_r; auto. }
          destruct Hab as [-> ->]. assert (Eg : ga = g1) by (eapply stk_same; eauto). exists gb. split; [rewrite <- Eg; symmetry; apply firstn_skipn|]. auto. }
        destruct Hg as (g2 & Hg & Lg2 & Hents).
        assert (Hzip : forall y, In y (map snd popped) -> exists t', In (y, t') (zip (map snd popped) ts2)) by (intros y Hy; eapply in_zip; eauto).
        assert (Hhe : forall m, m <= pos -> (forall y, In y (map snd popped) -> m <= key y) -> m <= head /\ m <= ehead).
        { intros m M1 M2. destruct (fold_from (map snd popped) pos pos) as [G1 G2]. rewrite <- Hf in G1, G2. cbn [fst snd] in G1, G2.
          split; [destruct G1 as [->|(y & Hy & <-)]|destruct G2 as [->|(y & Hy & <-)]]; auto. }
        assert (Hrest : forall z, In z (zip (map snd stk1) ts1) -> ~ flt (snd z) -> key (fst z) <= head /\ key (fst z) <= ehead).
        { intros z Hz Hft. apply Hhe; [auto|]. intros y Hy. destruct (Hzip y Hy) as [t' Hy']. apply (D1c (y, t') z); auto. }
        (* the deepest of them *)
        assert (Hdeep : popped <> [] -> exists b, In b (map snd popped) /\ key b <= pos /\ (forall y, In y (map snd popped) -> key b <= key y) /\ (head = key b \/ ehead = key b)).
        { intros Hpn. destruct (exists_last Hpn) as (pre & [q b] & Ep0). exists b. rewrite Ep0, map_app in Hf, Hents, Lp |- *. rewrite rev_app_distr in Hents. cbn [map rev app snd] in Hents.
          inversion Hents as [|X g3 ? ? tb ts3 Heb He3 Ex1 Ex2 Ex3]; subst g2 ts2.
          assert (Hnf : ~ flt tb).
          { intros Hft. destruct (ent_flt _ _ _ _ Heb Hft) as (A & -> & HA). destruct g3 as [|Y g3].
            - (* on top of the stack *)
              assert (pre = []) as -> by (destruct (ents_len _ _ _ _ He3) as [L5 _]; rewrite rev_length, map_length in L5; destruct pre; [auto|discriminate]).
              destruct b as [v i|k i|lo hi|]; [|destruct Heb; discriminate|destruct Heb; discriminate|destruct Heb]. rewrite Ep0 in Epop.
              destruct (Htop _ _ _ _ Epop) as (k3 & r3 & dd & Eg & Hr3 & Hk3 & Hv3). rewrite Hg in Eg. apply app_inj_tail in Eg as [<- Eg]. injection Eg as ->.
              revert Hdec. rewrite Hg. eapply last_decides; eauto. unfold la_at. rewrite Hx. discriminate.
            - apply (Hfl g1 A Y Hw HA). apply wants_valid. apply (can_state _ _ _ (md_can _ _ _ _ Hm)). pose proof (inv_state _ _ _ _ _ _ _ _ _ _ Hread) as Hstate. rewrite Hg in Hstate.
              replace (g1 ++ NT A :: Y :: g3) with (((g1 ++ [NT A]) ++ [Y]) ++ g3) in Hstate by (rewrite <- !app_assoc; reflexivity).
              unfold state_of in *. rewrite run_app in Hstate. destruct (run (pr_tab P) (p_start (pr_tab P)) ((g1 ++ [NT A]) ++ [Y])) as [q0|]; [eauto|discriminate]. }
          change (tb :: ts3) with ([tb] ++ ts3) in D1, D2, Hts. rewrite Epop, Ep0, !map_app in D1, D2. cbn [map snd] in D1, D2. rewrite Hts in D1, D2.
          assert (Lt : length (map snd pre) = length ts3) by (rewrite app_length in Lp; simpl in Lp; lia).
          rewrite <- (app_assoc (map snd pre)), (app_assoc ts1) in D1, D2. rewrite zip_app in D1, D2 by auto. cbn [app] in D1, D2. rewrite zip_cons in D1, D2.
          unfold flow in D2. apply Forall_app in D2 as [D2x D2y]. inversion D2y as [|? ? Hbp _]; subst. destruct (SS_app _ _ _ D1) as [_ D1y].
          split; [apply in_or_app; right; left; reflexivity|]. split; [apply Hbp; exact Hnf|]. split.
          - intros y Hy. apply in_app_or in Hy as [Hy|[<-|[]]]; [|auto]. destruct (in_zip _ _ _ ts3 _ He3 Hy) as [t' Hy']. apply (D1y (y, t') (b, tb)); [auto|left; auto|exact Hnf].
          - rewrite fold_left_app in Hf. cbn [fold_left] in Hf. destruct (fold_left upd (map snd pre) (pos, pos)) as [h0 e0]. destruct b as [v i|k i|lo hi|]; cbn [upd fst snd key] in *; injection Hf as -> ->; auto. destruct Heb. }
        set (m := Nat.min head pos).
        assert (Em : Nat.min head ehead <= m).
        { destruct popped as [|z0 l0] eqn:Epp; [cbn in Hf; injection Hf as -> ->; unfold m; lia|]. destruct (Hdeep ltac:(discriminate)) as (b & Hb & B1 & B2 & B3).
          destruct (Hhe (key b) B1 B2) as [H1 H2]. unfold m. lia. }
        rewrite put_back_ok in Epb by lia. injection Epb as <-.
        assert (Hbl : length (toks tix head (firstn (pos - head) (skipn head (ps_syms (ps_read tix st)))) ++ (t, pos) :: buf) = length (ps_syms (ps_read tix st)) - m).
        { assert (G : forall l i, length (toks tix i l) = length l) by (induction l; simpl; auto). rewrite app_length, G, firstn_length, skipn_length. cbn [length]. unfold m. lia. }
        assert (Hn' : ~ at_end st').
        { assert (G : forall l i, Forall (fun c => fst c <> TEoi) (toks tix i l)) by (clear; induction l; simpl; constructor; auto; discriminate).
          assert (HF : Forall (fun c => fst c <> TEoi) (ps_buf st')).
          { rewrite Ebf, Ht, Ebuf. assert (HF : Forall (fun c => fst c <> TEoi) (toks tix head (firstn (pos - head) (skipn head (ps_syms (ps_read tix st)))) ++ (TSym (tix x), pos) :: toks tix (S pos) (skipn (S pos) (ps_syms (ps_read tix st))))).
            { apply Forall_app. split; [apply G|]. constructor; [discriminate|apply G]. }
            destruct back; auto. revert HF. match goal with |- Forall _ ?l -> _ => generalize l end. intros [|c0 rest] HF; [constructor|]. inversion HF; auto. }
          unfold at_end. intros He. rewrite He in HF. inversion HF as [|? ? Hc]. apply Hc. reflexivity. }
        specialize (Hlen Hn').
        assert (Ep : pos' = if back then S m else pos).
        { rewrite Ebf in Hlen. destruct back.
          - assert (Htl : forall (A : Type) (l : list A), length (tl l) = length l - 1) by (intros A0 [|]; simpl; lia). rewrite Htl, Hbl in Hlen. unfold m in *. lia.
          - rewrite Hbl in Hlen. destruct (Hb1 eq_refl) as [-> _]. cbn [map fold_left] in Hf. injection Hf as -> _. unfold m in *. lia. }
        constructor.
        * exists g', ts'. split; [auto|]. split; [|rewrite Est; discriminate]. intros _. rewrite Est, E1. cbn [map snd]. rewrite zip_cons. split.
          -- constructor; [auto|]. apply Forall_forall. intros z Hz Hft. cbn [fst key]. destruct (Hrest z Hz Hft). lia.
          -- constructor; [cbn [fst key]; intros _; rewrite Ep; destruct back; unfold m in *; lia|]. apply Forall_forall. intros z Hz Hft. specialize (D2b z Hz Hft). destruct (Hrest z Hz Hft). rewrite Ep. destruct back; unfold m; lia.
        * intros j Hj. rewrite Eu, Est, app_nil_r. cbn [map snd flat_map piece].
          assert (Hsl : forall j, Nat.min head ehead <= j -> j <= pos -> exists lh, In lh (C ++ (Nat.min head ehead, pos) :: flat_map piece (map snd stk1)) /\ inside j lh).
          { intros j0 H1 H2. exists (Nat.min head ehead, pos). split; [apply in_or_app; right; left; auto|]. unfold inside. simpl. lia. }
          assert (Hj1 : j < pos \/ j = m).
          { rewrite Ep in Hj. destruct back; [|auto]. destruct (Nat.eq_dec j m); [auto|left; unfold m in *; lia]. }
          destruct Hj1 as [Hj1| ->]; [|apply Hsl; unfold m; lia].
          destruct (Hall j Hj1) as (lh & Hin & Hi). rewrite Epop, map_app, flat_map_app in Hin. rewrite !in_app_iff in Hin. destruct Hin as [Hin|[Hin|Hin]].
          -- exists lh. split; auto. apply in_or_app. auto.
          -- apply in_flat_map in Hin as (y & Hy & Hin). assert (Hpn : popped <> []) by (intros ->; destruct Hy). destruct (Hdeep Hpn) as (b & Hb & B1 & B2 & B3).
             apply Hsl; [|lia]. specialize (B2 y Hy). destruct y as [v i|k i|lo hi|]; simpl in Hin; try contradiction; destruct Hin as [<-|[]]; unfold inside in Hi; simpl in Hi, B2; lia.
          -- exists lh. split; auto. apply in_or_app. right. right. auto.
      + (* end of input *)
        rewrite Ht in Erec.
        assert (Hback : back = false).
        { destruct back; auto. exfalso. pose proof (recover_ok tix (gram s) (sx_start s) ss P w (length (ps_syms (ps_read tix st))) true (ps_rec (ps_read tix st)) (ps_stack st) g ts false (ps_state (ps_read tix st)) 0 0 pos) as R.
          pose proof (inv_stk _ _ _ _ _ _ _ _ _ _ Hread) as Hstk2. rewrite read_stack in Hstk2. specialize (R Hstk2 (inv_state _ _ _ _ _ _ _ _ _ _ Hread) ltac:(lia) (inv_low _ _ _ _ _ _ _ _ _ _ Hread)).
          rewrite Erec in R. destruct R as (? & ? & ? & ? & _ & _ & _ & _ & _ & _ & _ & R); [intros [?|?]; discriminate|]. specialize (R eq_refl). discriminate. }
        subst back. destruct (Hb1 eq_refl) as [-> _]. cbn [map fold_left app] in *. injection Hf as -> ->. unfold put_back in Epb. simpl in Epb. injection Epb as <-. cbn [app] in Ebf.
        assert (He' : at_end st') by (unfold at_end; rewrite Ebf, Ht; reflexivity).
        assert (Ep : pos' = pos).
        { destruct (inv_buf _ _ _ _ _ _ _ _ _ _ Hinv') as [Hx|(_ & _ & Hx)]; [unfold at_end in He'; rewrite He' in Hx; destruct (skipn pos' (ps_syms st')); discriminate|]. rewrite Hx, Hsyms, Hp. auto. }
        subst pos'. constructor; [exists g', ts'; split; [auto|]; split; [contradiction|rewrite Est; discriminate]|].
        intros j Hj. destruct (Hall j Hj) as (lh & Hin & Hi). exists lh. split; auto. rewrite Eu, Est, app_nil_r. cbn [map snd flat_map piece]. rewrite Epop in Hin. rewrite !in_app_iff in *. simpl. tauto.
  Qed.
  Lemma fcov_accept C st pos v it : fcov C st pos -> step st = inr (Ok (ROk v, it)) -> forall i, i < length w -> exists lh, In lh C /\ inside i lh.
  Proof.
    intros [(g & ts & Hinv & _) Hall] Hs i Hi. destruct (cases tix s P ws ss w Hm _ _ _ _ Hinv) as (d & _ & Hc). destruct d as [[q|k|]|]; cbn [step_case] in Hc.
    - destruct Hc as (_ & _ & s' & Hs' & _). congruence.
    - destruct Hc as [(r & _ & _ & Hx & _)|(r & dd & ts1 & ts2 & args & gen & _ & _ & _ & _ & _ & _ & _ & _ & _ & Hc)]; [congruence|].
      destruct (gen args) as [v0|e|]; [destruct Hc as (s' & Hs' & _)|destruct Hc as [it' Hc]|]; congruence.
    - destruct Hc as (_ & -> & -> & t & v' & -> & _ & Hx). pose proof (inv_stk _ _ _ _ _ _ _ _ _ _ Hinv) as Hstk.
      destruct (Hall i Hi) as (lh & Hin & Hi'). exists lh. split; auto. destruct (ps_stack st) as [|[q e] st1] eqn:Est; [destruct (stk_lens _ _ _ _ Hstk); discriminate|].
      apply stk_top in Hstk as (g0 & X & ts0 & t0 & Eg & _ & Hst & He). destruct g0 as [|? [|? ?]]; try discriminate. injection Eg as <-. destruct (stk_lens _ _ _ _ Hst) as [L _]. destruct st1; [|discriminate].
      destruct e; simpl in He, Hin; try (destruct He; discriminate); rewrite app_nil_r in Hin; auto.
    - destruct Hc as (_ & [(it' & Hx & _)|(s' & Hs' & _)]); congruence.
  Qed.
  Lemma fcov_init : fcov [] (ps_init P w) 0.
  Proof. constructor; [exists [], []; split; [apply at_init|]; split; [intros _; split; constructor|discriminate]|intros i Hi; lia]. Qed.
  Lemma fcov_run fuel : forall C st pos v it, fcov C st pos -> loop step fuel st = Ok (ROk v, it) -> forall i, i < length w -> exists lh, In lh (C ++ uses tix P fuel st) /\ inside i lh.
  Proof.
    induction fuel as [|fuel IH]; intros C st pos v it Hc Hl i Hi; [discriminate|]. cbn [loop uses] in *. destruct (step st) as [st'|r] eqn:Es.
    - destruct (fcov_step C st pos st' Hc Es) as [pos' Hc']. rewrite app_assoc. eapply IH; eauto.
    - subst r. destruct (fcov_accept _ _ _ _ _ Hc Es i Hi) as (lh & Hin & H). exists lh. split; auto. apply in_or_app. auto.
  Qed.
End Float.

(** without a rule that is empty or consists of error symbols, there are no such nonterminals *)
Lemma anchored_floats rs A : (forall r, In r rs -> exists X, In X (r_rhs r) /\ X <> TM TErr) -> ~ floats rs A.
Proof.
  intros Ha H. induction H as [r Hr Hf|r es B rest Hr E0 Hf _ IH]; [|exact IH].
  destruct (Ha r Hr) as (X & HX & Hne). rewrite Forall_forall in Hf. apply Hne. symmetry. auto.
Qed.

(** ** Reading the condition off the tables *)
(** the nonterminals of this kind, by their definition *)
Definition all_err (l : list sym) : bool := forallb (fun X => match X with TM TErr => true | _ => false end) l.
Fixpoint lead (l : list sym) : option sym := match l with TM TErr :: l' => lead l' | X :: _ => Some X | [] => None end.
Lemma lead_spec es X rest : Forall (eq (TM TErr)) es -> X <> TM TErr -> lead (es ++ X :: rest) = Some X.
Proof. induction 1 as [|y es <- _ IH]; intros HX; simpl; auto. destruct X as [|[| |]]; auto; congruence. Qed.
Lemma lead_none es : Forall (eq (TM TErr)) es -> lead es = None.
Proof. induction 1 as [|y es <- _ IH]; simpl; auto. Qed.
(** a set that contains the heads of all such rules contains all such nonterminals *)
Definition closed (rs : list rule) (fs : list nat) : bool :=
  forallb (fun r => match lead (r_rhs r) with
                    | None => existsb (Nat.eqb (r_lhs r)) fs
                    | Some (NT B) => negb (existsb (Nat.eqb B) fs) || existsb (Nat.eqb (r_lhs r)) fs
                    | _ => true end) rs.
Lemma closed_floats rs fs A : closed rs fs = true -> floats rs A -> In A fs.
Proof.
  intros Hc H. unfold closed in Hc. rewrite forallb_forall in Hc.
  assert (G : forall B, existsb (Nat.eqb B) fs = true <-> In B fs).
  { intros B. rewrite existsb_exists. split; [intros (x & Hx & E0); apply Nat.eqb_eq in E0; subst; auto|]. intros HB. exists B. split; auto. apply Nat.eqb_refl. }
  induction H as [r Hr Hf|r es B rest Hr E0 Hf _ IH]; specialize (Hc r Hr); [rewrite lead_none in Hc by auto|rewrite E0, lead_spec in Hc by (auto; discriminate)].
  - apply G. auto.
  - apply G in IH. rewrite IH in Hc. apply G. auto.
Qed.
(** a state from which no symbol leads on *)
Definition dead_end (p : lr_parser) (q : nat) : bool :=
  match aget eqb q (p_goto p) with Some (_ :: _) => false | _ => true end &&
  match aget eqb q (p_action p) with Some row => forallb (fun c => match snd c with Shift _ => false | _ => true end) row | None => true end.
Lemma dead_end_spec p q X : dead_end p q = true -> next_state p q X = None.
Proof.
  unfold dead_end, next_state. intros H. apply andb_true_iff in H as [H1 H2]. destruct X as [A|t].
  - destruct (aget eqb q (p_goto p)) as [[|c row]|]; auto; discriminate.
  - destruct (aget eqb q (p_action p)) as [row|]; auto. destruct (aget eqb t row) as [a|] eqn:Ea; auto. apply (aget_In _ (eqb_eq (A:=term))) in Ea.
    rewrite forallb_forall in H2. specialize (H2 _ Ea). simpl in H2. destruct a; auto; discriminate.
Qed.
(** from the states where an error symbol may come, these nonterminals lead to states where nothing may come *)
Definition float_ok (p : lr_parser) (fs : list nat) : bool :=
  forallb (fun c => forallb (fun A => match next_state p (fst c) (NT A) with Some q => dead_end p q | None => true end) fs) (p_errors p).
Lemma float_ok_spec {N T E} (s : syntax N T E) P ws ss fs : made s P ws ss -> closed (gram s) fs = true -> float_ok (pr_tab P) fs = true ->
  forall g A X, wants (augment (gram s) (sx_start s) ss) (length (gram s)) g (TM TErr) -> floats (gram s) A ->
  ~ wants (augment (gram s) (sx_start s) ss) (length (gram s)) (g ++ [NT A]) X.
Proof.
  intros Hm Hc Hf g A X Hw HA HX. pose proof (md_can _ _ _ _ Hm) as Hcan. apply (closed_floats _ fs) in HA; auto.
  apply wants_valid, (can_state _ _ _ Hcan) in HX as [q2 HX]. rewrite state_of_snoc in HX. destruct (state_of (pr_tab P) (g ++ [NT A])) as [q1|] eqn:E1; [|discriminate].
  rewrite state_of_snoc in E1. destruct (state_of (pr_tab P) g) as [q|] eqn:Eq; [|discriminate].
  pose proof (can_errors _ _ _ Hcan g q Eq) as He. destruct (aget eqb q (p_errors (pr_tab P))) as [ks|] eqn:Ek.
  - apply (aget_In _ (eqb_eq (A:=nat))) in Ek. unfold float_ok in Hf. rewrite forallb_forall in Hf. specialize (Hf _ Ek). rewrite forallb_forall in Hf. specialize (Hf _ HA). cbn [fst] in Hf. rewrite E1 in Hf.
    rewrite (dead_end_spec _ _ X Hf) in HX. discriminate.
  - destruct Hw as (k & i & la & r & V1 & V2 & V3). apply (He k). exists i, la, r. auto.
Qed.
