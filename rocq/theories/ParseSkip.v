(** * What [parse] does right after it has pushed an error symbol, in grammars that ask for a token behind every error
    symbol: it drops tokens up to the first one that can follow *)
From Coq Require Import List Arith Lia Bool Sorted.
From Verif Require Import Lib Grammar LrModel LrSpec LrSets LrStates LrNew LrTop LrMono ParseModel Trees ParseSpec ParseInv ParseComplete GramFacts ParseTerm ParseTop ParseMore ParseCover PropParse PropRecover SkipSpec.
Import ListNotations.

Section Skip.
  Context {N T E : Type} (tix : T -> nat).
  Variables (s : syntax N T E) (P : parser N T E) (ws : list warning) (ss : nat) (w : list T).
  Hypothesis Hm : made s P ws ss.
  Hypothesis Htok : forall r, In r (gram s) -> error_then_token (r_rhs r).
  Notation invat := (inv_at tix (gram s) (sx_start s) ss P w).
  Notation step := (parse_step tix P).
  Let p := pr_tab P.
  Let rs := augment (gram s) (sx_start s) ss.
  Let sr := length (gram s).
  Let Hcan : canonical rs sr p := md_can _ _ _ _ Hm.

  Lemma after_error g it : valid rs sr g it -> forall g0, g = g0 ++ [TM TErr] ->
    exists r a k b, nth_error rs (i_rule it) = Some r /\ r_rhs r = a ++ TM TErr :: TM (TSym k) :: b /\ i_pos it = S (length a).
  Proof.
    induction 1 as [|g k q b r X H IH Hr HX|g k q b r A k' r' t H IH Hr HX Hr' Hl Hf]; intros g0 Eg.
    - destruct g0; discriminate.
    - apply app_inj_tail in Eg as [-> ->]. cbn [i_rule i_pos]. destruct (nth_error_split _ _ HX) as (a & b0 & Ea & Eb).
      assert (Hin : In r (gram s)).
      { destruct (Nat.eq_dec k sr) as [->|Hk]; [|unfold rs in Hr; rewrite augment_old in Hr by auto; eapply nth_error_In; eauto].
        unfold rs, sr in Hr. rewrite augment_start in Hr. injection Hr as <-. simpl in Ea. destruct a as [|? [|]]; discriminate. }
      destruct (Htok r Hin a b0 Ea) as (k0 & b' & ->). exists r, a, k0, b'. split; auto.
    - destruct (IH g0 Eg) as (r0 & a & k0 & b' & E1 & E2 & E3). cbn [i_rule i_pos] in *. exfalso. assert (r0 = r) by congruence. subst r0.
      rewrite E2, E3 in HX. rewrite nth_error_app2 in HX by lia. replace (S (length a) - length a) with 1 in HX by lia. discriminate.
  Qed.
  Lemma error_decides g t d : decides rs sr p (g ++ [TM TErr]) t d ->
    match d with Some (Shift _) => wants rs sr (g ++ [TM TErr]) (TM t) | Some _ => False | None => ~ wants rs sr (g ++ [TM TErr]) (TM t) end.
  Proof.
    assert (Hc : forall k t0, ~ complete rs sr (g ++ [TM TErr]) k t0).
    { intros k t0 (r & Hr & Hv). destruct (after_error _ _ Hv g eq_refl) as (r0 & a & k0 & b & E1 & E2 & E3). cbn [i_rule i_pos] in *. assert (r0 = r) by congruence. subst r0.
      rewrite E2, app_length in E3. simpl in E3. lia. }
    destruct d as [[q|k|]|]; simpl.
    - tauto.
    - intros (_ & _ & _ & H & _). exact (Hc _ _ H).
    - intros (_ & _ & H). apply accepting_g in H; [|exact (md_fresh _ _ _ _ Hm)]. destruct g as [|? [|]]; discriminate.
    - tauto.
  Qed.
  Lemma error_wants_none g q : state_of p (g ++ [TM TErr]) = Some q -> aget eqb q (p_errors p) = None.
  Proof.
    intros Hq. pose proof (can_errors _ _ _ Hcan _ _ Hq) as H. destruct (aget eqb q (p_errors p)) as [ks|]; auto. exfalso. destruct H as [H1 H2].
    destruct ks as [|k ks]; [congruence|]. destruct (proj1 (H2 k) (or_introl eq_refl)) as (q0 & la & r & Hv & Hr & Hx).
    destruct (after_error _ _ Hv g eq_refl) as (r0 & a & k0 & b & E1 & E2 & E3). cbn [i_rule i_pos] in *. assert (r0 = r) by congruence. subst r0.
    rewrite E2, E3, nth_error_app2 in Hx by lia. replace (S (length a) - length a) with 1 in Hx by lia. discriminate.
  Qed.

  Lemma unread_inv st g ts pos : invat st g ts pos -> unread st = skipn pos w.
  Proof.
    intros H. unfold unread. rewrite (inv_input _ _ _ _ _ _ _ _ _ _ H), skipn_app. rewrite (proj2 (Nat.sub_0_le pos _) (inv_pos _ _ _ _ _ _ _ _ _ _ H)). cbn [skipn]. f_equal.
    destruct (inv_buf _ _ _ _ _ _ _ _ _ _ H) as [Hb|(Hb & _ & ->)].
    - rewrite Hb. assert (G : forall l i all, skipn i all = l -> flat_map (unread_cell all) (toks tix i l) = l).
      { induction l as [|x l IH]; intros i all Hl; auto. cbn [toks flat_map unread_cell fst snd]. assert (Hx : nth_error all i = Some x).
        { rewrite <- (Nat.add_0_r i), <- nth_skip, Hl. reflexivity. }
        rewrite Hx. cbn [app]. f_equal. apply IH. rewrite <- Nat.add_1_r, <- skipn_twice, Hl. reflexivity. }
      apply G. auto.
    - rewrite Hb, skipn_all. reflexivity.
  Qed.

  (** the error symbol on top of the stack, and what recovery may still use *)
  Definition on_top (st : pstate N T) (cur lo hi : nat) (stk : list (nat * entry N)) : Prop :=
    ps_stack st = (cur, EErr lo hi) :: stk /\ exists ers, aget eqb cur (p_errors p) = Some ers /\ ps_rec st <> [] /\ incl (ps_rec st) ers.

  Lemma recover_rc eoi rc : forall (st : list (nat * entry N)) back cur head ehead cur' st' rc' back' head' ehead',
    recover p eoi rc back cur head ehead st = Some (cur', st', rc', back', head', ehead') ->
    exists ers, aget eqb cur' (p_errors p) = Some ers /\ (rc' = ers \/ rc' <> [] /\ incl rc' ers).
  Proof.
    assert (Here : forall (cur : nat) back rc', (if negb eoi || negb back then match aget eqb cur (p_errors p) with Some ers => match rc with [] => Some ers | _ => if disjoint_nat rc ers then None else Some (inter_nat rc ers) end | None => None end else None) = Some rc' ->
        exists ers, aget eqb cur (p_errors p) = Some ers /\ (rc' = ers \/ rc' <> [] /\ incl rc' ers)).
    { intros cur back rc' H. destruct (negb eoi || negb back); [|discriminate]. destruct (aget eqb cur (p_errors p)) as [ers|]; [|discriminate]. exists ers. split; auto.
      destruct rc as [|x rc0]; [injection H as ->; auto|]. set (l := x :: rc0) in *. clearbody l. destruct (disjoint_nat l ers) eqn:Ed; [discriminate|]. injection H as <-. right. split.
      - intros E0. unfold disjoint_nat in Ed. assert (forallb (fun x => negb (existsb (Nat.eqb x) ers)) l = true); [|congruence]. apply forallb_forall. intros y Hy.
        destruct (existsb (Nat.eqb y) ers) eqn:Ey; auto. exfalso. assert (Hi : In y (inter_nat l ers)) by (apply filter_In; auto). rewrite E0 in Hi. destruct Hi.
      - intros y Hy. apply filter_In in Hy as [_ Hy]. apply existsb_exists in Hy as (z & Hz & Ez). apply Nat.eqb_eq in Ez. subst z. auto. }
    induction st as [|[q en] st IH]; intros back cur head ehead cur' st' rc' back' head' ehead' H; cbn [recover] in H.
    - destruct (if negb eoi || negb back then _ else None) as [rc0|] eqn:Eh; [|discriminate]. injection H as <- <- <- <- <- <-. eauto.
    - destruct (if negb eoi || negb back then _ else None) as [rc0|] eqn:Eh; [injection H as <- <- <- <- <- <-; eauto|].
      destruct en; eauto.
  Qed.

  Lemma recovered st st' : turns tix P w st -> step_error tix P st <> None -> step st = inl st' -> exists cur lo hi stk, on_top st' cur lo hi stk.
  Proof.
    intros Ht He Hs. assert (Ht' : turns tix P w st') by (econstructor; eauto).
    destruct (turns_inv tix s P ws ss w Hm st' Ht') as (g' & ts' & pos' & Hinv').
    unfold step_error in He. unfold parse_step in Hs. cbv zeta in Hs. destruct (ps_buf (ps_read tix st)) as [|[t i] buf]; [discriminate|]. fold p in Hs, He.
    destruct (act p (ps_state (ps_read tix st)) t) as [[a|]| |]; try (exfalso; apply He; reflexivity).
    destruct (recover _ _ _ _ _ _ _ _) as [[[[[[cur st1] rc] back] head] ehead]|] eqn:Er; [|discriminate].
    destruct (put_back _ _ _ _) as [pb| |]; try discriminate. destruct (act p cur TErr) as [[[q|k|]|]| |]; try discriminate. injection Hs as <-.
    exists cur, (Nat.min head ehead), i, st1. split; [reflexivity|]. cbn [ps_rec]. destruct (recover_rc _ _ _ _ _ _ _ _ _ _ _ _ _ Er) as (ers & E1 & E2). exists ers. split; auto.
    destruct E2 as [->|E2]; auto. split; [|apply incl_refl].
    pose proof (inv_stk _ _ _ _ _ _ _ _ _ _ Hinv') as Hk. cbn [ps_stack] in Hk. inversion Hk as [|? g0 ? ? ? ? ? _ Hg0 _ _]; subst.
    pose proof (can_errors _ _ _ Hcan _ _ Hg0) as H. rewrite E1 in H. apply H.
  Qed.

  Lemma top_state st cur lo hi stk : turns tix P w st -> on_top st cur lo hi stk ->
    exists g ts pos, invat st (g ++ [TM TErr]) (ts ++ [Bad lo hi]) pos /\ state_of p g = Some cur /\ lo <= pos.
  Proof.
    intros Ht [Es _]. destruct (turns_inv tix s P ws ss w Hm st Ht) as (g & ts & pos & Hinv).
    pose proof (inv_stk _ _ _ _ _ _ _ _ _ _ Hinv) as Hk. rewrite Es in Hk. inversion Hk as [|? g0 ts0 ? ? X t _ Hg0 He _]; subst. simpl in He. destruct He as (-> & -> & _).
    exists g0, ts0, pos. split; auto. split; auto. pose proof (inv_low _ _ _ _ _ _ _ _ _ _ Hinv) as Hl. unfold lows in Hl. rewrite flat_map_app in Hl. apply Forall_app in Hl as [_ Hl].
    inversion Hl; auto.
  Qed.

  Lemma same_wants g g' q X : state_of p g = Some q -> state_of p g' = Some q -> wants rs sr g X -> wants rs sr g' X.
  Proof.
    intros H1 H2 (k & i & la & r & Hv & Hr). exists k, i, la, r. split; auto. apply (proj1 (can_same _ _ _ Hcan _ _ _ _ H1 H2) eq_refl). auto.
  Qed.

  (** one dropped token *)
  Lemma skip_turn st g cur lo hi stk x rest : turns tix P w st -> on_top st cur lo hi stk -> state_of p (g ++ [TM TErr]) = Some (ps_state st) ->
    unread st = x :: rest -> ~ wants rs sr (g ++ [TM TErr]) (TM (TSym (tix x))) ->
    exists st', step st = inl st' /\ step_call tix P st = None /\ step_error tix P st = Some (TSym (tix x), length w - length (unread st)) /\
      unread st' = rest /\ ps_state st' = ps_state st /\ on_top st' cur lo (length w - length (unread st)) stk.
  Proof.
    intros Ht Htop Hg Hu Hnw. destruct (top_state st cur lo hi stk Ht Htop) as (g1 & ts & pos & Hinv & Hcur & Hlo).
    pose proof (inv_state _ _ _ _ _ _ _ _ _ _ Hinv) as Hst. fold p in Hst.
    assert (Hw1 : ~ wants rs sr (g1 ++ [TM TErr]) (TM (TSym (tix x)))) by (intros H; apply Hnw; exact (same_wants _ _ _ _ Hst Hg H)).
    pose proof (unread_inv _ _ _ _ Hinv) as Hun. rewrite Hu in Hun.
    assert (Hx : nth_error w pos = Some x) by (rewrite <- (Nat.add_0_r pos), <- nth_skip, <- Hun; reflexivity).
    assert (Hlt : pos < length w) by (apply nth_error_Some; congruence).
    assert (Hpos : length w - length (unread st) = pos) by (rewrite Hu, Hun, skipn_length; lia). rewrite Hpos.
    assert (Hla : la_at tix w pos = TSym (tix x)) by (unfold la_at; rewrite Hx; reflexivity).
    destruct (cases tix s P ws ss w Hm _ _ _ _ Hinv) as (d & Hd & Hc). rewrite (err_spec tix s P ws ss w Hm _ _ _ _ _ Hinv Hd), (proj2 (Nat.ltb_lt _ _) Hlt), Hla. rewrite Hla in Hd. pose proof (error_decides _ _ _ Hd) as Hd'.
    assert (d = None) by (destruct d as [[q|k|]|]; tauto). subst d. destruct Hc as [Hcall _].
    destruct (read_inv tix _ _ _ _ _ (md_len _ _ _ _ Hm) _ _ _ _ Hinv) as [Hread (t0 & i0 & buf0 & Eb0 & Hcase)].
    destruct Hcase as [(x0 & Hx0 & -> & -> & Hlt0 & ->)|(_ & _ & Hp & _)]; [|lia]. assert (x0 = x) by congruence. subst x0.
    assert (Hq : ps_state (ps_read tix st) = ps_state st) by (unfold ps_read; destruct (ps_buf st); auto; destruct (ps_iter st); auto).
    assert (Hk : ps_stack (ps_read tix st) = ps_stack st) by (apply read_stack).
    assert (Hrc : ps_rec (ps_read tix st) = ps_rec st) by (unfold ps_read; destruct (ps_buf st); auto; destruct (ps_iter st); auto).
    destruct Htop as [Es (ers & Ee & Hne & Hin)].
    assert (Hact : act p (ps_state (ps_read tix st)) (TSym (tix x)) = Ok None).
    { destruct (act_state (gram s) (sx_start s) ss P Hcan _ _ (TSym (tix x)) Hst) as (d & Ha & Hdd). rewrite Hq. fold p in Ha. rewrite Ha. f_equal. eapply decides_det; eauto. }
    assert (Hrec : recover p false (ps_rec st) false (ps_state st) pos pos ((cur, EErr lo hi) :: stk) = Some (cur, stk, inter_nat (ps_rec st) ers, true, pos, lo)).
    { cbn [recover negb orb]. rewrite (error_wants_none _ _ Hst).
      assert (Hdis : disjoint_nat (ps_rec st) ers = false).
      { destruct (ps_rec st) as [|y rc]; [congruence|]. unfold disjoint_nat. cbn [forallb]. replace (existsb (Nat.eqb y) ers) with true; [reflexivity|]. symmetry. apply existsb_exists. exists y. split; [apply Hin; left; auto|apply Nat.eqb_refl]. }
      destruct stk as [|[q1 e1] stk1]; cbn [recover negb orb]; rewrite Ee; destruct (ps_rec st) as [|y rc] eqn:Erc; try congruence; rewrite Hdis; reflexivity. }
    destruct (act_state (gram s) (sx_start s) ss P Hcan _ _ TErr Hcur) as (dE & HaE & HdE). fold p in HaE.
    assert (HwE : wants rs sr g1 (TM TErr)) by (eapply errors_wants; eauto).
    destruct dE as [[q'|k'|]|]; try (destruct HdE as [HdE _]; contradiction). destruct HdE as [_ HsE]. fold p in HsE. fold rs sr in HsE. assert (q' = ps_state st) by congruence. subst q'.
    eexists. split.
    { unfold parse_step. cbv zeta. rewrite Eb0. fold p. rewrite Hact, Hq, Hk, Hrc, Es, Hrec. unfold put_back. rewrite Nat.sub_diag. cbn [seq mapM app tl]. rewrite HaE. reflexivity. }
    split; [exact Hcall|]. split; [reflexivity|]. split; [|split; [reflexivity|]].
    - pose proof (unread_inv _ _ _ _ Hread) as Hr. unfold unread in *. cbn [ps_buf ps_syms ps_iter]. rewrite Eb0 in Hr. cbn [flat_map unread_cell fst snd] in Hr.
      assert (Hn : nth_error (ps_syms (ps_read tix st)) pos = Some x).
      { rewrite (inv_input _ _ _ _ _ _ _ _ _ _ Hread), nth_error_app1 in Hx by auto. exact Hx. }
      rewrite Hn, <- Hun in Hr. cbn [app] in Hr. injection Hr as Hr. exact Hr.
    - split; [cbn [ps_stack]; rewrite Nat.min_r by auto; reflexivity|]. exists ers. split; auto. cbn [ps_rec]. split.
      + destruct (ps_rec st) as [|y rc]; [congruence|]. unfold inter_nat. cbn [filter]. replace (existsb (Nat.eqb y) ers) with true; [discriminate|]. symmetry. apply existsb_exists. exists y. split; [apply Hin; left; auto|apply Nat.eqb_refl].
      + intros y Hy. apply filter_In in Hy as [Hy _]. auto.
  Qed.

  (** the token that can follow *)
  Lemma sync_turn st g cur lo hi stk x rest : turns tix P w st -> on_top st cur lo hi stk -> state_of p (g ++ [TM TErr]) = Some (ps_state st) ->
    unread st = x :: rest -> wants rs sr (g ++ [TM TErr]) (TM (TSym (tix x))) ->
    exists st', step st = inl st' /\ step_call tix P st = None /\ step_error tix P st = None /\
      unread st' = rest /\ state_of p (g ++ [TM TErr; TM (TSym (tix x))]) = Some (ps_state st') /\
      ps_stack st' = (ps_state st, ETok (tix x) (length w - length (unread st))) :: ps_stack st.
  Proof.
    intros Ht Htop Hg Hu Hw. destruct (top_state st cur lo hi stk Ht Htop) as (g1 & ts & pos & Hinv & Hcur & Hlo).
    pose proof (inv_state _ _ _ _ _ _ _ _ _ _ Hinv) as Hst. fold p in Hst.
    assert (Hw1 : wants rs sr (g1 ++ [TM TErr]) (TM (TSym (tix x)))) by (exact (same_wants _ _ _ _ Hg Hst Hw)).
    pose proof (unread_inv _ _ _ _ Hinv) as Hun. rewrite Hu in Hun.
    assert (Hx : nth_error w pos = Some x) by (rewrite <- (Nat.add_0_r pos), <- nth_skip, <- Hun; reflexivity).
    assert (Hlt : pos < length w) by (apply nth_error_Some; congruence).
    assert (Hpos : length w - length (unread st) = pos) by (rewrite Hu, Hun, skipn_length; lia). rewrite Hpos.
    assert (Hla : la_at tix w pos = TSym (tix x)) by (unfold la_at; rewrite Hx; reflexivity).
    destruct (cases tix s P ws ss w Hm _ _ _ _ Hinv) as (d & Hd & Hc). rewrite (err_spec tix s P ws ss w Hm _ _ _ _ _ Hinv Hd). rewrite Hla in Hd. pose proof (error_decides _ _ _ Hd) as Hd'.
    destruct d as [[q|k|]|]; try tauto. destruct Hc as (Hcall & _ & st' & Hs & Hi').
    destruct (read_inv tix _ _ _ _ _ (md_len _ _ _ _ Hm) _ _ _ _ Hinv) as [Hread (t0 & i0 & buf0 & Eb0 & Hcase)].
    destruct Hcase as [(x0 & Hx0 & -> & -> & Hlt0 & ->)|(_ & _ & Hp & _)]; [|lia]. assert (x0 = x) by congruence. subst x0.
    exists st'. split; auto. split; auto. split; auto. split; [|split].
    - rewrite (unread_inv _ _ _ _ Hi'). rewrite <- Nat.add_1_r, <- skipn_twice, <- Hun. reflexivity.
    - destruct (act_state (gram s) (sx_start s) ss P Hcan _ _ (TSym (tix x)) Hst) as (d & Ha & Hdd). assert (d = Some (Shift q)) by (eapply decides_det; eauto). subst d.
      destruct (act_state (gram s) (sx_start s) ss P Hcan _ _ (TSym (tix x)) Hg) as (d' & Ha' & Hdd'). assert (d' = Some (Shift q)) by congruence. subst d'.
      destruct Hdd' as [_ Hdd']. destruct Hdd as [_ Hdd]. pose proof (inv_state _ _ _ _ _ _ _ _ _ _ Hi') as Hs'. rewrite Hla in Hs'. fold p in Hdd, Hdd', Hs'.
      rewrite <- app_assoc in Hdd'. cbn [app] in Hdd'. rewrite Hdd'. congruence.
    - unfold parse_step in Hs. cbv zeta in Hs. rewrite Eb0 in Hs. fold p in Hs.
      assert (Hq : ps_state (ps_read tix st) = ps_state st) by (unfold ps_read; destruct (ps_buf st); auto; destruct (ps_iter st); auto).
      destruct (act_state (gram s) (sx_start s) ss P Hcan _ _ (TSym (tix x)) Hst) as (d & Ha & Hdd). assert (d = Some (Shift q)) by (eapply decides_det; eauto). subst d. fold p in Ha.
      rewrite Hq, Ha in Hs. injection Hs as <-. cbn [ps_stack]. rewrite read_stack. reflexivity.
  Qed.

  (** the end of the input *)
  Lemma skip_end st g cur lo hi stk : turns tix P w st -> on_top st cur lo hi stk -> state_of p (g ++ [TM TErr]) = Some (ps_state st) ->
    unread st = [] -> exists it, step st = inr (Ok (RNotFound, it)).
  Proof.
    intros Ht Htop Hg Hu. destruct (top_state st cur lo hi stk Ht Htop) as (g1 & ts & pos & Hinv & Hcur & Hlo).
    pose proof (inv_state _ _ _ _ _ _ _ _ _ _ Hinv) as Hst. fold p in Hst.
    pose proof (unread_inv _ _ _ _ Hinv) as Hun. rewrite Hu in Hun.
    assert (Hge : length w <= pos) by (assert (H : length (skipn pos w) = 0) by (rewrite <- Hun; reflexivity); rewrite skipn_length in H; lia).
    assert (Hla : la_at tix w pos = TEoi) by (unfold la_at; rewrite (proj2 (nth_error_None _ _) Hge); reflexivity).
    destruct (cases tix s P ws ss w Hm _ _ _ _ Hinv) as (d & Hd & Hc). rewrite Hla in Hd. pose proof (error_decides _ _ _ Hd) as Hd'.
    assert (Hnw : ~ wants rs sr (g1 ++ [TM TErr]) (TM TEoi)) by (eapply wants_no_eoi; exact (md_eoi _ _ _ _ Hm)).
    assert (d = None) by (destruct d as [[q|k|]|]; tauto). subst d. destruct Hc as [_ [(it & H & _)|(st' & Hs & _ & g' & ts' & ts2 & lo' & hi' & pos' & _ & Hw' & _ & _ & Hend & _)]]; [eauto|].
    exfalso. assert (pos = length w).
    { pose proof (inv_pos _ _ _ _ _ _ _ _ _ _ Hinv) as H1. pose proof (inv_input _ _ _ _ _ _ _ _ _ _ Hinv) as H2. apply (f_equal (@length _)) in H2. rewrite app_length in H2. lia. }
    destruct (Hend H) as (_ & _ & -> & _). pose proof (can_errors _ _ _ Hcan _ _ Hst) as He. rewrite (error_wants_none _ _ Hst) in He.
    destruct Hw' as (k & q0 & la & r & Hv & Hr & Hx). apply (He k). exists q0, la, r. auto.
  Qed.

  (** any number of dropped tokens *)
  Lemma skip_all skip : forall st g cur lo hi stk rest, turns tix P w st -> on_top st cur lo hi stk -> state_of p (g ++ [TM TErr]) = Some (ps_state st) ->
    unread st = skip ++ rest -> (forall y, In y skip -> ~ wants rs sr (g ++ [TM TErr]) (TM (TSym (tix y)))) ->
    exists st', turn_run tix P (length skip) st = Some st' /\ calls tix P (length skip) st = [] /\
      errors tix P (length skip) st = toks tix (length w - length (unread st)) skip /\
      turns tix P w st' /\ unread st' = rest /\ ps_state st' = ps_state st /\
      on_top st' cur lo (match skip with [] => hi | _ => length w - length rest - 1 end) stk.
  Proof.
    induction skip as [|x skip IH]; intros st g cur lo hi stk rest Ht Htop Hg Hu Hno.
    { exists st. cbn [length turn_run calls errors toks app] in *. auto 10. }
    destruct (skip_turn st g cur lo hi stk x (skip ++ rest) Ht Htop Hg Hu (Hno x (or_introl eq_refl))) as (st1 & Hs & Hc & He & Hu1 & Hq & Htop1).
    assert (Ht1 : turns tix P w st1) by (econstructor; eauto).
    destruct (IH st1 g cur lo _ stk rest Ht1 Htop1 ltac:(rewrite Hq; exact Hg) Hu1 (fun y Hy => Hno y (or_intror Hy))) as (st' & R1 & R2 & R3 & R4 & R5 & R6 & R7).
    assert (Hle : length (unread st) <= length w).
    { destruct (turns_inv tix s P ws ss w Hm st Ht) as (? & ? & ? & Hinv). rewrite (unread_inv _ _ _ _ Hinv), skipn_length. lia. }
    assert (El : length w - length (unread st1) = S (length w - length (unread st))) by (rewrite Hu1; rewrite Hu in *; cbn [app length] in *; lia).
    exists st'. cbn [length turn_run calls errors toks]. rewrite Hs, Hc, He, R2, R3, El. cbn [app]. split; auto. split; auto. split; auto. split; auto. split; auto. split; [congruence|].
    destruct skip as [|y skip]; auto. replace (length w - length rest - 1) with (length w - length (unread st)); auto. rewrite Hu in *. cbn [app length] in *. lia.
  Qed.
End Skip.
