(** * [parse] does what the reference semantics says *)
From Coq Require Import List Arith Lia Bool Sorted.
From Verif Require Import Lib Grammar LrModel LrSpec LrSets LrStates LrNew LrTop LrMono ParseModel Trees ParseSpec ParseInv ParseComplete ParseTop ParseMore ParseCover ParseRecTerm MachSpec.
Import ListNotations.

Section Det.
  Context {N T E : Type} (tix : T -> nat).
  Variables (rules : list rule) (start ss : nat) (gs : list (reducer N T E)) (w : list T).
  Notation mstep := (mstep tix rules start ss gs w).
  Notation mend := (mend tix rules start ss gs w).

  (** ** The abstract parser is deterministic *)
  Lemma shift_not g t : can_shift rules start ss g t -> ~ do_accept rules start ss g t /\ (forall k, ~ do_reduce rules start ss g t k) /\ ~ do_recover rules start ss g t.
  Proof. intros H. split; [|split]; [intros [Hx _]|intros k [Hx _]|intros [Hx _]]; auto. Qed.
  Lemma accept_not g t : do_accept rules start ss g t -> (forall k, ~ do_reduce rules start ss g t k) /\ ~ do_recover rules start ss g t.
  Proof. intros [_ H]. split; [intros k (_ & Hx & _)|intros (_ & Hx & _)]; auto. Qed.
  Lemma reduce_not g t k : do_reduce rules start ss g t k -> ~ do_recover rules start ss g t.
  Proof. intros (_ & _ & H & _) (_ & _ & Hx). exact (Hx k H). Qed.
  Lemma reduce_det g t k k' : do_reduce rules start ss g t k -> do_reduce rules start ss g t k' -> k = k'.
  Proof. intros (_ & _ & H1 & H2) (_ & _ & H3 & H4). specialize (H2 _ H3). specialize (H4 _ H1). lia. Qed.

  Lemma SS_ext (l l' : list nat) : StronglySorted Nat.lt l -> StronglySorted Nat.lt l' -> (forall k, In k l <-> In k l') -> l = l'.
  Proof.
    revert l'. induction l as [|a l IH]; intros l' H1 H2 H.
    - destruct l' as [|b l']; auto. exfalso. apply (H b). left; auto.
    - destruct l' as [|b l']; [exfalso; apply (H a); left; auto|].
      apply StronglySorted_inv in H1 as [H1 Ha]. apply StronglySorted_inv in H2 as [H2 Hb]. rewrite Forall_forall in Ha, Hb.
      assert (a = b).
      { destruct (proj1 (H a) (or_introl eq_refl)) as [Hx|Hx]; [auto|]. destruct (proj2 (H b) (or_introl eq_refl)) as [Hy|Hy]; [auto|].
        specialize (Hb _ Hx). specialize (Ha _ Hy). unfold Nat.lt in *. lia. }
      subst b. f_equal. apply IH; auto. intros k. split; intros Hk.
      + destruct (proj1 (H k) (or_intror Hk)) as [Hx|Hx]; auto. subst k. specialize (Ha _ Hk). unfold Nat.lt in Ha. lia.
      + destruct (proj2 (H k) (or_intror Hk)) as [Hx|Hx]; auto. subst k. specialize (Hb _ Hk). unfold Nat.lt in Hb. lia.
  Qed.

  Lemma split_det {A} (l1 l1' l2 l2' : list A) : l1 ++ l2 = l1' ++ l2' -> length l2 = length l2' -> l1 = l1' /\ l2 = l2'.
  Proof.
    intros H Hl. assert (L : length l1 = length l1') by (apply (f_equal (@length A)) in H; rewrite !app_length in H; lia).
    clear Hl. revert l1' H L. induction l1 as [|a l1 IH]; intros [|b l1'] H L; simpl in *; try discriminate; auto.
    injection H as -> H. injection L as L. destruct (IH _ H L) as [-> ->]. auto.
  Qed.

  Ltac clash := exfalso; repeat match goal with
    | H : can_shift _ _ _ ?g ?t |- _ => apply shift_not in H as (? & ? & ?)
    | H : do_accept _ _ _ ?g ?t |- _ => first [contradiction|apply accept_not in H as (? & ?)]
    | H : do_reduce _ _ _ _ _ ?k, H' : forall k, ~ do_reduce _ _ _ _ _ k |- _ => exact (H' k H)
    | H : do_reduce _ _ _ _ _ _, H' : do_recover _ _ _ _ _ |- _ => exact (reduce_not _ _ _ H H')
    | H : do_recover _ _ _ _ _, H' : ~ do_recover _ _ _ _ _ |- _ => exact (H' H)
    end.
  Ltac same_red := match goal with
    | H : do_reduce _ _ _ _ _ ?k, H' : do_reduce _ _ _ _ _ ?k' |- _ =>
        assert (k = k') by (eapply reduce_det; eauto); subst k';
        match goal with Ha : nth_error rules k = Some ?r, Hb : nth_error rules k = Some ?r' |- _ => assert (r = r') by congruence; subst r' end;
        match goal with Ha : c_cells _ = ?l1 ++ ?l2, Hb : c_cells _ = ?l1' ++ ?l2', Hc : length ?l2 = _, Hd : length ?l2' = _ |- _ =>
          destruct (split_det l1 l1' l2 l2' ltac:(congruence) ltac:(congruence)); subst l1' l2' end
    end.

  Lemma mach_step_det c c1 c2 : mstep c c1 -> mstep c c2 -> c1 = c2.
  Proof.
    intros [x H1 H2|k r l l' args f v H1 H2 H3 H4 H5 H6 H7|m act H1 H2 H3 H4 H5 i0 dr] [x' G1 G2|k' r' m0 m' args' f' v' G1 G2 G3 G4 G5 G6 G7|m' act' G1 G2 G3 G4 G5 i1 dr']; try solve [clash].
    - rewrite H2 in G2. injection G2 as <-. reflexivity.
    - same_red. assert (args = args') by congruence. subst args'. assert (f = f') by congruence. subst f'. assert (v = v') by congruence. subst v'. auto.
    - assert (m = m') by (specialize (H3 _ G2); specialize (G3 _ H2); lia). subst m'.
      assert (act = act'). { apply SS_ext; auto. intros k. rewrite H5, G5. reflexivity. } subst act'. reflexivity.
  Qed.
  Lemma mach_end_stuck c c1 r : mstep c c1 -> mend c r -> False.
  Proof.
    intros [x H1 H2|k q l l' args f v H1 H2 H3 H4 H5 H6 H7|m act H1 H2 H3 H4 H5 i0 dr] [A v' i G1 G2|G1 G2|k' r' m0 m' args' f' x' G1 G2 G3 G4 G5 G6 G7|k' r' m0 m' args' f' G1 G2 G3 G4 G5 G6 G7|k' r' m0 m' G1 G2 G3 G4 G5]; try solve [clash].
    - same_red. congruence.
    - same_red. congruence.
    - same_red. congruence.
    - exact (G2 m H2).
  Qed.
  Lemma mach_end_det c r1 r2 : mend c r1 -> mend c r2 -> r1 = r2.
  Proof.
    intros [A v i H1 H2|H1 H2|k q l l' args f x H1 H2 H3 H4 H5 H6 H7|k q l l' args f H1 H2 H3 H4 H5 H6 H7|k q l l' H1 H2 H3 H4 H5]
      [A' v' i' G1 G2|G1 G2|k' r' m0 m' args' f' x' G1 G2 G3 G4 G5 G6 G7|k' r' m0 m' args' f' G1 G2 G3 G4 G5 G6 G7|k' r' m0 m' G1 G2 G3 G4 G5]; try solve [clash]; auto;
      try (same_red; congruence).
    congruence.
  Qed.
End Det.

Section Mach.
  Context {N T E : Type} (tix : T -> nat).
  Variables (s : syntax N T E) (P : parser N T E) (ws : list warning) (ss : nat) (w : list T).
  Hypothesis Hm : made s P ws ss.
  Let rules := gram s.
  Let start := sx_start s.
  Let rs := augment rules start ss.
  Let sr := length rules.
  Let p := pr_tab P.
  Notation invat := (inv_at tix (gram s) (sx_start s) ss P w).
  Notation stack := (stk tix (gram s) (sx_start s) ss P w).
  Notation step := (parse_step tix P).
  Notation mstep := (mstep tix rules start ss (gens s) w).
  Notation mend := (mend tix rules start ss (gens s) w).
  Notation look := (look tix w).
  Notation taken := (taken w).
  Notation usable := (usable rules start ss).
  Notation resumes := (resumes tix rules start ss w).

  (** ** Decisions *)
  Lemma complete_le g k t : complete rs sr g k t -> k <= sr.
  Proof. intros (r & Hr & _). apply nth_error_Some_lt in Hr. unfold rs, augment in Hr. rewrite app_length in Hr. simpl in Hr. unfold sr. lia. Qed.
  Lemma can_reduce_iff g t k : can_reduce rules start ss g t k <-> k <> sr /\ complete rs sr g k t.
  Proof.
    unfold can_reduce. fold rs sr. split; intros [H1 H2]; split; auto; try lia. apply complete_le in H2. lia.
  Qed.
  Lemma decision g t d : decides rs sr p g t d ->
    match d with
    | Some (Shift _) => can_shift rules start ss g t
    | Some Accept => do_accept rules start ss g t
    | Some (Reduce k) => do_reduce rules start ss g t k
    | None => do_recover rules start ss g t
    end.
  Proof.
    destruct d as [[q|k|]|]; simpl.
    - intros [H _]. exact H.
    - intros (H1 & H2 & H3 & H4 & H5). split; [exact H1|]. split; [exact H2|]. split; [apply can_reduce_iff; auto|]. intros k' Hk. apply can_reduce_iff in Hk as [Ha Hb]. auto.
    - intros (H1 & H2 & H3). split; [exact H1|]. split; auto.
    - intros (H1 & H2 & H3). split; [exact H1|]. split; [exact H2|]. intros k Hk. apply can_reduce_iff in Hk as [Ha Hb]. exact (H3 k Ha Hb).
  Qed.

  (** ** The recovery search *)
  Lemma here_spec rc g cur : state_of p g = Some cur ->
    match (match aget eqb cur (p_errors p) with
           | Some ers => match rc with [] => Some ers | _ => if disjoint_nat rc ers then None else Some (inter_nat rc ers) end
           | None => None
           end) with
    | Some rc' => (exists k, usable rc g k) /\ forall k, In k rc' <-> usable rc g k
    | None => forall k, ~ usable rc g k
    end.
  Proof.
    intros Hs. pose proof (can_errors rs sr p (md_can _ _ _ _ Hm) g cur Hs) as H.
    unfold MachSpec.usable. fold rs sr. destruct (aget eqb cur (p_errors p)) as [ers|].
    - destruct H as [H1 H2]. destruct rc as [|x rc].
      + split; [|intros k; rewrite H2; tauto]. destruct ers as [|k ers]; [congruence|]. exists k. split; [apply H2; left; auto|auto].
      + unfold disjoint_nat, inter_nat. destruct (forallb _ (x :: rc)) eqn:Ef.
        * intros k [Hk [Hx|Hx]]; [discriminate|]. rewrite forallb_forall in Ef. specialize (Ef k Hx). apply negb_true_iff in Ef.
          assert (G : existsb (Nat.eqb k) ers = true) by (apply existsb_exists; exists k; split; [apply H2; auto|apply Nat.eqb_refl]). congruence.
        * assert (G : forall k, In k (filter (fun x => existsb (Nat.eqb x) ers) (x :: rc)) <-> wants_error rs sr g k /\ (x :: rc = [] \/ In k (x :: rc))).
          { intros k. rewrite filter_In, existsb_exists, <- H2. split.
            - intros (Ha & y & Hy & Hb). apply Nat.eqb_eq in Hb. subst y. auto.
            - intros (Ha & [Hx|Hx]); [discriminate|]. split; auto. exists k. split; auto. apply Nat.eqb_refl. }
          split; [|exact G].
          assert (Hex : exists k, In k (filter (fun x => existsb (Nat.eqb x) ers) (x :: rc))).
          { clear G. induction (x :: rc) as [|y l IH]; [discriminate|]. cbn [forallb] in Ef. cbn [filter]. destruct (existsb (Nat.eqb y) ers); [exists y; left; auto|]. apply IH. exact Ef. }
          destruct Hex as [k Hk]. exists k. apply G. exact Hk.
    - intros k [Hk _]. exact (H k Hk).
  Qed.

  Lemma recover_exact n eoi rc : forall st g ts back cur head ehead, stack n st g ts -> state_of p g = Some cur ->
    let ok m := m <= length g /\ (eoi = true -> back = false /\ m = length g) /\ exists k, usable rc (firstn m g) k in
    match recover p eoi rc back cur head ehead st with
    | None => forall m, ~ ok m
    | Some (cur', st', rc', _, _, _) => exists m, ok m /\ (forall m', ok m' -> m' <= m) /\ st' = skipn (length g - m) st /\ (forall k, In k rc' <-> usable rc (firstn m g) k)
    end.
  Proof.
    intros st g ts back cur head ehead H. revert back cur head ehead.
    assert (Here : forall back g cur, state_of p g = Some cur ->
      match (if negb eoi || negb back then match aget eqb cur (p_errors p) with
           | Some ers => match rc with [] => Some ers | _ => if disjoint_nat rc ers then None else Some (inter_nat rc ers) end
           | None => None end else None) with
      | Some rc' => (eoi = true -> back = false) /\ (exists k, usable rc g k) /\ forall k, In k rc' <-> usable rc g k
      | None => (eoi = true -> back = false) -> forall k, ~ usable rc g k
      end).
    { intros back g0 cur Hc. pose proof (here_spec rc g0 cur Hc) as Hh.
      destruct (negb eoi || negb back) eqn:Eb.
      - destruct (match aget eqb cur (p_errors p) with Some _ => _ | None => _ end).
        + split; [|exact Hh]. intros ->. destruct back; [discriminate|auto].
        + intros _. exact Hh.
      - intros Hx. destruct eoi; [|discriminate]. rewrite (Hx eq_refl) in Eb. discriminate. }
    induction H as [|st g ts q e X t H IH Hs He Hu]; intros back cur head ehead Hcur ok.
    - cbn [recover]. specialize (Here back [] cur Hcur). destruct (if negb eoi || negb back then _ else _) as [rc'|].
      + destruct Here as (H1 & H2 & H3). exists 0. split; [|split; [|split]]; auto.
        * split; [auto|]. split; auto.
        * intros m' [Hm' _]. exact Hm'.
      + intros m (H1 & H2 & k & H3). rewrite firstn_nil in H3. apply (Here (fun Hx => proj1 (H2 Hx)) k). exact H3.
    - assert (Hrec : recover p eoi rc back cur head ehead ((q, e) :: st) =
         match (if negb eoi || negb back then match aget eqb cur (p_errors p) with Some ers => match rc with [] => Some ers | _ => if disjoint_nat rc ers then None else Some (inter_nat rc ers) end | None => None end else None) with
         | Some rc' => Some (cur, (q, e) :: st, rc', back, head, ehead)
         | None => match e with ENon _ i => recover p eoi rc true q i ehead st | ETok _ i => recover p eoi rc true q i ehead st
                        | EErr lo _ => recover p eoi rc true q head lo st | EEoi => recover p eoi rc true q head ehead st end
         end) by (cbn [recover]; destruct e; reflexivity).
      rewrite Hrec. clear Hrec. specialize (Here back (g ++ [X]) cur Hcur). destruct (if negb eoi || negb back then _ else _) as [rc'|].
      + destruct Here as (H1 & H2 & H3). exists (length (g ++ [X])). rewrite firstn_all, Nat.sub_diag. split; [|split; [|split]]; auto.
        * split; [auto|]. split; auto. rewrite firstn_all. exact H2.
        * intros m' [Hm' _]. exact Hm'.
      + assert (Hlast : ~ ok (length (g ++ [X]))).
        { intros (_ & H2 & k & H3). rewrite firstn_all in H3. exact (Here (fun Hx => proj1 (H2 Hx)) k H3). }
        assert (Hok : forall m, ok m <-> (m <= length g /\ (eoi = true -> true = false /\ m = length g) /\ exists k, usable rc (firstn m g) k)).
        { intros m. unfold ok at 1. rewrite app_length. cbn [length]. rewrite firstn_app. split.
          - intros (H1 & H2 & H3). assert (m <> length g + 1).
            { intros ->. apply Hlast. unfold ok. rewrite app_length. cbn [length]. rewrite firstn_app. auto. }
            assert (m <= length g) by lia. split; [auto|]. split; [|].
            + intros Hx. destruct (H2 Hx). lia.
            + replace (m - length g) with 0 in H3 by lia. cbn [firstn] in H3. rewrite app_nil_r in H3. exact H3.
          - intros (H1 & H2 & H3). split; [lia|]. split; [intros Hx; destruct (H2 Hx); discriminate|].
            replace (m - length g) with 0 by lia. cbn [firstn]. rewrite app_nil_r. exact H3. }
        assert (Hnext : forall head' ehead', match recover p eoi rc true q head' ehead' st with
          | None => forall m, ~ ok m
          | Some (cur', st', rc', _, _, _) => exists m, ok m /\ (forall m', ok m' -> m' <= m) /\ st' = skipn (length (g ++ [X]) - m) ((q, e) :: st) /\ (forall k, In k rc' <-> usable rc (firstn m (g ++ [X])) k)
          end).
        { intros head' ehead'. specialize (IH true q head' ehead' Hs). cbv zeta in IH. destruct (recover p eoi rc true q head' ehead' st) as [[[[[[cur' st'] rc'] back'] hd'] eh'']|].
          - destruct IH as (m & I1 & I2 & I3 & I4). exists m. split; [apply Hok; exact I1|]. split; [intros m' Hm'; apply I2; apply Hok; exact Hm'|].
            destruct I1 as [I1 _]. rewrite app_length, firstn_app. cbn [length]. replace (length g + 1 - m) with (S (length g - m)) by lia. split; [exact I3|].
            replace (m - length g) with 0 by lia. cbn [firstn]. rewrite app_nil_r. exact I4.
          - intros m Hx. apply Hok in Hx. exact (IH m Hx). }
        destruct e; apply Hnext.
  Qed.

  (** ** The relation between the two parsers *)
  Definition cent (c : cell (N := N)) : entry N := match c with CVal _ v i => ENon v i | CTok k i => ETok k i | CErr lo hi => EErr lo hi end.
  Record sim (st : pstate N T) (c : conf (N := N)) : Prop := {
    sm_inv : exists ts, invat st (c_syms c) ts (c_pos c);
    sm_stack : map snd (ps_stack st) = rev (map cent (c_cells c));
    sm_far : c_far c = length (ps_syms st);
    sm_act : forall k, In k (c_act c) <-> In k (ps_rec st) }.

  Lemma read_rec (st : pstate N T) : ps_rec (ps_read tix st) = ps_rec st.
  Proof. unfold ps_read. destruct (ps_buf st); auto. destruct (ps_iter st); auto. Qed.
  Lemma usable_ext act rc g k : (forall x, In x act <-> In x rc) -> (usable act g k <-> usable rc g k).
  Proof.
    intros H. assert (G : act = [] <-> rc = []).
    { split; intros ->; [destruct rc as [|x rc]|destruct act as [|x act]]; auto; exfalso; apply (H x); left; auto. }
    unfold MachSpec.usable. rewrite G, H. reflexivity.
  Qed.

  Lemma sim_taken st c : sim st c -> taken c = length (ps_syms (ps_read tix st)) /\ ps_iter (ps_read tix st) = skipn (taken c) w.
  Proof.
    intros [[ts Hi] _ Hf _]. unfold MachSpec.taken. rewrite Hf. set (pos := c_pos c) in *.
    destruct (read_inv tix _ _ _ _ _ (md_len _ _ _ _ Hm) _ _ _ _ Hi) as [Hread (t & i & buf & Eb & Hla)].
    pose proof (inv_input _ _ _ _ _ _ _ _ _ _ Hread) as Hw. pose proof (inv_input _ _ _ _ _ _ _ _ _ _ Hi) as Hw0.
    assert (Hlen : Nat.max (length (ps_syms st)) (Nat.min (S pos) (length w)) = length (ps_syms (ps_read tix st))).
    { assert (L0 : length w = length (ps_syms st) + length (ps_iter st)) by (rewrite Hw0 at 1; apply app_length).
      assert (L : length w = length (ps_syms (ps_read tix st)) + length (ps_iter (ps_read tix st))) by (rewrite Hw at 1; apply app_length).
      assert (Hg : length (ps_syms st) <= length (ps_syms (ps_read tix st)) <= Nat.max (length (ps_syms st)) (S pos)).
      { pose proof (inv_buf _ _ _ _ _ _ _ _ _ _ Hi) as Hbuf. unfold ps_read. destruct (ps_buf st) as [|b bf] eqn:E0; [|lia]. destruct (ps_iter st) as [|x it]; cbn [ps_syms]; [lia|].
        rewrite app_length. simpl. unfold buf_ok in Hbuf. rewrite E0 in Hbuf. destruct Hbuf as [Hbuf|[Hbuf _]]; [|discriminate].
        assert (length (ps_syms st) <= pos).
        { destruct (Nat.le_gt_cases (length (ps_syms st)) pos) as [|Hgt]; auto. exfalso. destruct (nth_error (ps_syms st) pos) as [y|] eqn:Ey; [|apply nth_error_None in Ey; lia].
          rewrite (skipn_cons _ _ _ Ey) in Hbuf. discriminate. }
        pose proof (inv_pos _ _ _ _ _ _ _ _ _ _ Hi). lia. }
      destruct Hla as [(x & Hx & _ & _ & Hlt & _)|(_ & _ & Hp & _ & _ & Hl)]; lia. }
    split; [exact Hlen|]. rewrite Hlen. rewrite Hw at 1. rewrite skipn_app, skipn_all, Nat.sub_diag. reflexivity.
  Qed.
  Lemma sim_look st c : sim st c -> exists i buf, ps_buf (ps_read tix st) = (look c, i) :: buf /\ i = (if c_pos c <? length w then c_pos c else 0).
  Proof.
    intros [[ts Hi] _ _ _]. destruct (read_inv tix _ _ _ _ _ (md_len _ _ _ _ Hm) _ _ _ _ Hi) as [Hread (t & i & buf & Eb & Hla)].
    exists i, buf. rewrite Eb. unfold MachSpec.look. destruct Hla as [(x & Hx & -> & -> & _)|(-> & -> & Hp & _)].
    - rewrite Hx. split; auto. rewrite (proj2 (Nat.ltb_lt _ _)); auto. eapply nth_error_Some_lt; eauto.
    - rewrite (proj2 (nth_error_None _ _)) by lia. split; auto. rewrite (proj2 (Nat.ltb_ge _ _)); auto. lia.
  Qed.

  (** positions of symbols *)
  Lemma first_pos_index l d : first_pos l d = first_index (map cent l) d.
  Proof. induction l as [|[A v i|k i|lo hi] l IH]; simpl; auto. Qed.
  Lemma fold_pos l h e : fold_left upd (rev (map cent l)) (h, e) = (first_pos l h, first_err l e).
  Proof. induction l as [|c l IH]; simpl; auto. rewrite fold_left_app, IH. destruct c; reflexivity. Qed.

  Lemma args_same syms rest : w = syms ++ rest -> forall l es ts, ents tix (gram s) (sx_start s) ss P w (length syms) l es ts ->
    StronglySorted Nat.lt (flat_map leaves ts) -> forall base, Forall (fun j => base <= j) (flat_map leaves ts) ->
    forall cs, es = map cent cs ->
    reduce_args syms base es = match cell_args w cs with Some a => Ok a | None => Panic end.
  Proof.
    intros Hw. induction 1 as [|X l e es t ts He Hes IH]; intros Hs base Hb cs Ecs.
    - destruct cs; [reflexivity|discriminate].
    - destruct cs as [|c cs]; [discriminate|]. injection Ecs as -> Ecs. simpl in Hs, Hb. apply Forall_app in Hb as [Hb1 Hb2].
      assert (Hs' : StronglySorted Nat.lt (flat_map leaves ts)) by (clear - Hs; induction (leaves t); auto; inversion Hs; auto).
      destruct c as [A v i|k i|lo hi]; cbn [cent] in He |- *; cbn [ent] in He; cbn [reduce_args cell_args cell_arg].
      + rewrite (IH Hs' base Hb2 cs Ecs). destruct (cell_args w cs); reflexivity.
      + destruct He as (-> & -> & Hlt & x & Hx & Hk). simpl in Hs, Hb1. apply Forall_inv in Hb1 as Hbi. apply StronglySorted_inv in Hs as [_ Hall].
        rewrite (proj2 (Nat.ltb_ge _ _)) by auto. rewrite Hx. rewrite Hw, nth_error_app1 in Hx by auto. rewrite Hx. cbn [of_opt bind].
        rewrite (IH Hs' (S i) Hall cs Ecs). destruct (cell_args w cs); reflexivity.
      + destruct He as (-> & -> & H1 & H2).
        destruct H2 as [H2|H2].
        * rewrite (slice_ok _ _ _ P w (md_len _ _ _ _ Hm) syms rest) by auto. rewrite (proj2 (Nat.ltb_lt hi (length w))) by (rewrite Hw, app_length; lia). cbn [bind].
          rewrite (IH Hs' base Hb2 cs Ecs). destruct (cell_args w cs); reflexivity.
        * assert (syms = []) as ->. { rewrite H2 in Hw. destruct syms; [auto|discriminate]. }
          unfold slice. rewrite (proj2 (Nat.ltb_ge hi (length (@nil T)))) by (simpl; lia). rewrite andb_false_r. rewrite H2. reflexivity.
  Qed.

  Lemma syms_fun n n' st : forall g g' ts, stack n st g ts -> stack n' st g' ts -> g = g'.
  Proof.
    induction st as [|[q e] st IH]; intros g g' ts A B; inversion A; inversion B; subst; auto.
    match goal with E : _ ++ [_] = _ ++ [_] |- _ => apply app_inj_tail in E as [-> ->] end.
    match goal with A : stk _ _ _ _ _ _ _ st ?g1 ?ts1, B : stk _ _ _ _ _ _ _ st ?g2 ?ts1 |- _ => rewrite (IH _ _ _ A B) end. f_equal. f_equal.
    match goal with A : ent _ _ _ _ _ _ _ e ?X1 ?t, B : ent _ _ _ _ _ _ _ e ?X2 ?t |- ?X1 = ?X2 => destruct e; cbn [ent] in A, B end.
    - match goal with A : _ /\ twf _ _ _ ?X1 ?t /\ _, B : _ /\ twf _ _ _ ?X2 ?t /\ _ |- _ => destruct A as ((A1 & ->) & A & _); destruct B as ((B1 & ->) & B & _); inversion A; inversion B; subst; congruence end.
    - intuition congruence.
    - intuition congruence.
    - tauto.
  Qed.

  (** a sorted list with given bounded members *)
  Lemma SS_filter (f : nat -> bool) n : forall k, StronglySorted Nat.lt (filter f (seq k n)).
  Proof.
    induction n as [|n IH]; intros k; simpl; [constructor|]. destruct (f k); auto. constructor; auto.
    apply Forall_forall. intros x Hx. apply filter_In in Hx as [Hx _]. apply in_seq in Hx. unfold Nat.lt. lia.
  Qed.
  Lemma as_sorted (l : list nat) : exists l', StronglySorted Nat.lt l' /\ forall k, In k l' <-> In k l.
  Proof.
    exists (filter (fun k => existsb (Nat.eqb k) l) (seq 0 (S (list_max l)))). split; [apply SS_filter|].
    intros k. rewrite filter_In, in_seq, existsb_exists. split.
    - intros (_ & y & Hy & He). apply Nat.eqb_eq in He. subst y. auto.
    - intros H. split; [|exists k; split; auto; apply Nat.eqb_refl]. pose proof (proj1 (list_max_le l (list_max l)) (le_n _)) as Hl. rewrite Forall_forall in Hl. specialize (Hl _ H). lia.
  Qed.

  Lemma firstn_rev_stack (es : list (nat * entry N)) (cs l l' : list (cell (N := N))) : map snd es = rev (map cent cs) -> cs = l ++ l' ->
    map snd (rev (firstn (length l') es)) = map cent l' /\ map snd (skipn (length l') es) = rev (map cent l).
  Proof.
    intros H ->. rewrite map_app, rev_app_distr in H.
    assert (G : map snd (firstn (length l') es) = rev (map cent l') /\ map snd (skipn (length l') es) = rev (map cent l)).
    { rewrite <- firstn_map, <- skipn_map, H. assert (L : length (rev (map cent l')) = length l') by (rewrite rev_length, map_length; auto).
      rewrite <- L. rewrite firstn_app, skipn_app, firstn_all, skipn_all, Nat.sub_diag. cbn [firstn skipn]. rewrite app_nil_r. auto. }
    destruct G as [G1 G2]. split; [|auto]. rewrite map_rev, G1, rev_involutive. reflexivity.
  Qed.

  Lemma sim_step st c : sim st c ->
    match step st with
    | inl st' => exists c', mstep c c' /\ sim st' c'
    | inr r => mend c r
    end.
  Proof.
    intros Hsim. pose proof Hsim as [[ts Hi] Hst Hf Ha].
    destruct (sim_taken _ _ Hsim) as [Htk Hit]. destruct (sim_look _ _ Hsim) as (i & buf & Eb & Ei).
    destruct (cases tix s P ws ss w Hm _ _ _ _ Hi) as (d & Hd & Hc).
    change (la_at tix w (c_pos c)) with (look c) in *. pose proof (decision _ _ _ Hd) as Hdo.
    assert (Hsyms : forall st', step st = inl st' -> ps_syms st' = ps_syms (ps_read tix st)) by (intros st' H0; eapply step_shape; eauto).
    destruct (read_inv tix _ _ _ _ _ (md_len _ _ _ _ Hm) _ _ _ _ Hi) as [Hread _].
    assert (Hcur : state_of p (c_syms c) = Some (ps_state (ps_read tix st))) by apply Hread.
    assert (Hact : act p (ps_state (ps_read tix st)) (look c) = Ok d).
    { destruct (act_state rules start ss P (md_can _ _ _ _ Hm) _ _ (look c) Hcur) as (d' & E1 & E2). fold p in E1. rewrite E1. f_equal. eapply decides_det; eauto. }
    assert (Hlc : length (c_syms c) = length (c_cells c)) by apply map_length.
    destruct d as [[q|k|]|]; cbn [step_case] in Hc.
    - (* shift *)
      destruct Hc as (_ & Hlt & st' & Es & Hi'). rewrite Es.
      assert (Hx : exists x, nth_error w (c_pos c) = Some x) by (destruct (nth_error w (c_pos c)) eqn:E0; eauto; apply nth_error_None in E0; lia). destruct Hx as [x Hx].
      assert (El : look c = TSym (tix x)) by (unfold MachSpec.look; rewrite Hx; auto).
      eexists. split; [eapply m_shift; eauto|]. pose proof Es as Es0. unfold parse_step in Es0. cbv zeta in Es0. rewrite Eb in Es0. fold p in Es0. rewrite Hact, El in Es0. injection Es0 as Est'.
      constructor; cbn [c_cells c_pos c_far c_act c_syms].
      + exists (ts ++ [Leaf (c_pos c)]). unfold c_syms. cbn [c_cells]. rewrite map_app. cbn [map csym]. change (la_at tix w (c_pos c)) with (look c) in Hi'. rewrite El in Hi'. exact Hi'.
      + rewrite <- Est'. cbn [ps_stack map snd]. rewrite read_stack, map_app, rev_app_distr. cbn [map rev app cent]. rewrite Hst. f_equal. rewrite Ei, (proj2 (Nat.ltb_lt _ _)) by auto. auto.
      + rewrite (Hsyms _ Es). auto.
      + rewrite <- Est'. cbn [ps_rec]. rewrite read_rec. auto.
    - (* reduce *)
      assert (Hk : k <> sr) by apply Hd.
      assert (Hr : exists r dd, nth_error rs k = Some r /\ c_syms c = dd ++ r_rhs r).
      { destruct Hd as (_ & _ & _ & Hcm & _). destruct (complete_split rs sr _ _ _ (Hsr rules start ss) Hcm Hk) as (r & d0 & E1 & E2 & _). exists r, d0. auto. }
      destruct Hr as (r & dd & Hr & Eg). pose proof (rule_old s ss k r Hk Hr) as Hr0.
      set (l := firstn (length dd) (c_cells c)). set (l' := skipn (length dd) (c_cells c)).
      assert (Ecells : c_cells c = l ++ l') by (symmetry; apply firstn_skipn).
      assert (Hdd : length (c_cells c) = length dd + length (r_rhs r)) by (rewrite <- Hlc, Eg, app_length; auto).
      assert (Ll' : length l' = length (r_rhs r)) by (unfold l'; rewrite skipn_length; lia).
      assert (El : map csym l = dd) by (unfold l; rewrite <- firstn_map; fold (c_syms c); rewrite Eg, firstn_app, firstn_all, Nat.sub_diag; cbn [firstn]; apply app_nil_r).
      destruct (firstn_rev_stack (ps_stack st) (c_cells c) l l' Hst Ecells) as [Ef Es].
      pose proof (inv_stk _ _ _ _ _ _ _ _ _ _ Hread) as Hstk. rewrite read_stack in Hstk. rewrite Eg in Hstk.
      destruct (stk_pop tix _ _ _ P w (md_len _ _ _ _ Hm) _ dd (r_rhs r) _ _ Hstk) as (Hle & ts1 & ts2 & Ets & Hs1 & Hen & _ & _).
      rewrite <- Ll' in Hen. rewrite Ef in Hen.
      assert (Hsort : StronglySorted Nat.lt (flat_map leaves ts2)).
      { pose proof (inv_sorted _ _ _ _ _ _ _ _ _ _ Hread) as Hso. rewrite Ets, flat_map_app in Hso. eapply SSorted_app_inv; eauto. }
      pose proof (args_same _ _ (inv_input _ _ _ _ _ _ _ _ _ _ Hread) _ _ _ Hen Hsort 0 ltac:(apply Forall_forall; intros; lia) l' eq_refl) as Hargs.
      assert (Hgen : exists f, nth_error (gens s) k = Some f /\ nth_error (pr_gens P) k = Some f).
      { assert (Hlt : k < length (gens s)) by (rewrite gens_len; eapply nth_error_Some_lt; eauto).
        destruct (nth_error (gens s) k) as [f|] eqn:E0; [|apply nth_error_None in E0; lia]. exists f. split; auto. rewrite (md_gens _ _ _ _ Hm), nth_error_app1; auto. }
      destruct Hgen as (f & Hf1 & Hf2).
      assert (Hstep : step st = step st) by auto. unfold parse_step in Hstep at 2. cbv zeta in Hstep. rewrite Eb in Hstep. fold p in Hstep. rewrite Hact in Hstep.
      rewrite (can_rules _ _ _ (md_can _ _ _ _ Hm) : p_rules p = rs) in Hstep. rewrite Hr, read_stack in Hstep.
      rewrite (proj2 (Nat.ltb_ge _ _)) in Hstep by exact Hle. rewrite <- Ll', Ef, Hargs in Hstep. rewrite Hf2 in Hstep.
      destruct (cell_args w l') as [args|] eqn:Ecl.
      2:{ rewrite Hstep. eapply e_slice; eauto. }
      destruct (f args) as [v|x|] eqn:Efa.
      + assert (Hcall : step_call tix P st = Some (k, args)).
        { unfold step_call. cbv zeta. rewrite Eb. fold p. rewrite Hact. rewrite (can_rules _ _ _ (md_can _ _ _ _ Hm) : p_rules p = rs). rewrite Hr, read_stack.
          rewrite (proj2 (Nat.ltb_ge _ _)) by exact Hle. rewrite <- Ll', Ef, Hargs. reflexivity. }
        destruct Hc as [(r0 & _ & Hn & _)|(r0 & dd0 & us1 & us2 & args0 & gen & E1 & E2 & _ & Hcall' & E3 & E4 & _ & _ & E5 & Hc)]; [congruence|].
        rewrite Hcall in Hcall'. injection Hcall' as <-. rewrite Hf2 in E5. injection E5 as <-. rewrite Efa in Hc. destruct Hc as (st' & Es' & Hi').
        assert (r0 = r) by (unfold rs, rules, start in *; congruence). subst r0. rewrite Eg in E2. apply app_inv_tail in E2. subst dd0.
        rewrite Es' in Hstep. rewrite Es'. eexists. split; [eapply m_reduce; eauto|].
        destruct (aget eqb _ (p_goto p)) as [row|]; [|discriminate]. destruct (aget eqb (r_lhs r) row) as [q|]; [|discriminate]. injection Hstep as Est'.
        constructor; cbn [c_cells c_pos c_far c_act].
        * exists (us1 ++ [Node k us2]). unfold c_syms. cbn [c_cells]. rewrite map_app. cbn [map csym]. rewrite El. exact Hi'.
        * rewrite Est'. cbn [ps_stack map snd]. rewrite Es, map_app, rev_app_distr. cbn [map rev app cent]. rewrite first_pos_index, Htk. reflexivity.
        * rewrite (Hsyms _ Es'). exact Htk.
        * rewrite Est'. cbn [ps_rec]. rewrite read_rec. intros x.
          assert (Hex : existsb (Nat.eqb k) (c_act c) = existsb (Nat.eqb k) (ps_rec st)).
          { apply eq_true_iff_eq. rewrite !existsb_exists. split; intros (y & Hy & He); exists y; split; auto; apply Ha; auto. }
          rewrite Hex. destruct (existsb (Nat.eqb k) (ps_rec st)); [reflexivity|apply Ha].
      + rewrite Hstep, Hit. eapply e_error; eauto.
      + rewrite Hstep. eapply e_panic; eauto.
    - (* accept *)
      destruct Hc as (_ & Hpos & Hg & t & v & Ets & _ & Es). rewrite Es.
      pose proof Es as Es0. unfold parse_step in Es0. cbv zeta in Es0. rewrite Eb in Es0. fold p in Es0. rewrite Hact, read_stack in Es0.
      destruct (c_cells c) as [|c0 [|c1 cl]] eqn:Ec; try (exfalso; unfold c_syms in Hg; rewrite Ec in Hg; discriminate).
      destruct (ps_stack st) as [|[q e] stt]; [discriminate|]. cbn [map rev app snd] in Hst. injection Hst as -> _.
      destruct c0 as [A v0 j|k j|lo hi]; cbn [cent] in Es0; try discriminate. injection Es0 as <- <-. rewrite Hit. eapply e_accept; eauto.
    - (* recovery *)
      set (eoi := match look c with TEoi => true | _ => false end).
      pose proof (inv_stk _ _ _ _ _ _ _ _ _ _ Hread) as Hstk. rewrite read_stack in Hstk.
      pose proof (recover_exact _ eoi (ps_rec st) _ _ _ false _ i i Hstk Hcur) as R. cbv zeta in R.
      assert (Hok : forall m, (m <= length (c_syms c) /\ (eoi = true -> false = false /\ m = length (c_syms c)) /\ exists k, usable (ps_rec st) (firstn m (c_syms c)) k) <-> resumes c m).
      { intros m. unfold MachSpec.resumes. rewrite <- Hlc. assert (He : eoi = true <-> look c = TEoi) by (unfold eoi; destruct (look c); split; congruence).
        split; intros (H1 & H2 & k & H3); (split; [exact H1|]).
        - split; [intros Hx; apply H2; apply He; auto|]. exists k. eapply usable_ext; eauto.
        - split; [intros Hx; split; auto; apply H2; apply He; auto|]. exists k. eapply usable_ext; eauto. intros x; symmetry; auto. }
      assert (Hstep : step st = step st) by auto. unfold parse_step in Hstep at 2. cbv zeta in Hstep. rewrite Eb in Hstep. fold p in Hstep. rewrite Hact in Hstep. fold eoi in Hstep. rewrite read_stack, read_rec in Hstep.
      destruct (recover p eoi (ps_rec st) false (ps_state (ps_read tix st)) i i (ps_stack st)) as [[[[[[cur st1] rc] back] head] ehead]|] eqn:Erec.
      2:{ rewrite Hstep, Hit. apply e_not_found; [exact Hdo|]. intros m Hx. apply Hok in Hx. exact (R m Hx). }
      destruct R as (m & R1 & R2 & R3 & R4). destruct Hc as (_ & [(it & Hs0 & _)|(st' & Hs' & _ & g' & ts' & ts2 & lo & hi & pos' & Ets & _ & _ & _ & _ & Hi')]).
      { exfalso. rewrite Hs0 in Hstep. destruct (put_back _ _ _ _) as [pb| |]; try discriminate. destruct (act p cur TErr) as [[[q|k|]|]| |]; discriminate. }
      rewrite Hs'. destruct (step_shape tix P st st' Hs') as [Hsh _].
      assert (Hsh' : exists pb, put_back tix (ps_syms (ps_read tix st)) head i = Ok pb /\ ps_stack st' = (cur, EErr (Nat.min head ehead) i) :: st1 /\ ps_rec st' = rc /\
        ps_buf st' = (if back then tl (pb ++ (look c, i) :: buf) else pb ++ (look c, i) :: buf)).
      { rewrite Hs' in Hstep. destruct (put_back _ _ _ _) as [pb| |]; try discriminate. destruct (act p cur TErr) as [[[q|k|]|]| |]; try discriminate.
        injection Hstep as ->. exists pb. auto. }
      destruct Hsh' as (pb & Epb & Est & Erc & Ebf).
      assert (Erec0 : recover (pr_tab P) (match look c with TEoi => true | _ => false end) (ps_rec (ps_read tix st)) false (ps_state (ps_read tix st)) i i (ps_stack st) = Some (cur, st1, rc, back, head, ehead)) by (rewrite read_rec; exact Erec).
      destruct (rec_pos tix s P ws ss w Hm _ _ _ _ _ _ _ _ _ _ _ _ _ _ _ _ _ _ Hi Hi' (Hsyms _ Hs') Eb Erec0 Epb Ebf) as [Epos Hback].
      destruct (recover_pops P _ _ _ _ _ _ _ _ _ _ _ _ _ Erec0) as (popped & Epop & Hfold & Hb1 & Hb2).
      destruct (as_sorted rc) as (act' & Hsa & Ham).
      assert (Hmle : m <= length (c_cells c)) by (rewrite <- Hlc; apply R1).
      set (l := firstn m (c_cells c)). set (l' := skipn m (c_cells c)). assert (Ecells : c_cells c = l ++ l') by (symmetry; apply firstn_skipn).
      destruct (firstn_rev_stack (ps_stack st) (c_cells c) l l' Hst Ecells) as [Ef Es].
      assert (Ll' : length l' = length (c_syms c) - m) by (unfold l'; rewrite skipn_length, Hlc; auto).
      rewrite Ll', <- R3 in Es.
      assert (Lpop : length popped = length l').
      { apply (f_equal (@length _)) in Epop. rewrite app_length in Epop. rewrite R3, skipn_length in Epop.
        apply (f_equal (@length _)) in Hst. rewrite map_length, rev_length, map_length in Hst. lia. }
      assert (Epop' : map snd popped = rev (map cent l')).
      { rewrite <- Ef, map_rev, rev_involutive, <- Lpop. rewrite Epop, firstn_app, firstn_all, Nat.sub_diag. cbn [firstn]. rewrite app_nil_r. reflexivity. }
      rewrite Epop', fold_pos in Hfold. injection Hfold as Eh Ee.
      eexists. split; [eapply (m_recover _ _ _ _ _ _ _ m act')|].
      + exact Hdo.
      + apply Hok. exact R1.
      + intros m' Hx. apply R2. apply Hok. exact Hx.
      + exact Hsa.
      + intros k. rewrite Ham, R4. apply usable_ext. intros x; symmetry; auto.
      + cbv zeta. rewrite <- Ei. fold l l'. constructor; cbn [c_cells c_pos c_far c_act].
        * assert (Ep : (match l' with [] => c_pos c | _ => S (Nat.min (first_pos l' i) (c_pos c)) end) = pos').
          { rewrite Epos. destruct back.
            - destruct l' as [|c0 l'']; [|rewrite <- Eh; auto]. exfalso. apply (Hb2 eq_refl eq_refl). destruct popped; [auto|discriminate].
            - destruct (Hb1 eq_refl) as [-> _]. destruct l'; [auto|discriminate]. }
          rewrite Ep. exists (ts' ++ [Bad lo hi]).
          assert (Eg' : g' = map csym l).
          { pose proof (inv_stk _ _ _ _ _ _ _ _ _ _ Hi') as Hk'. rewrite Est in Hk'. inversion Hk' as [|st0 g0 us0 q0 e0 X0 t0 Hk0 _ _ _ E1 E2 E3]. apply app_inj_tail in E2 as [-> _]. apply app_inj_tail in E3 as [-> _]. subst st0.
            rewrite <- (firstn_skipn m (c_syms c)) in Hstk. destruct (stk_pop tix _ _ _ P w (md_len _ _ _ _ Hm) _ _ _ _ _ Hstk) as (_ & us1 & us2 & Eu & Hu & _).
            rewrite skipn_length, <- R3 in Hu. unfold c_syms in Hu. rewrite firstn_map in Hu. fold l in Hu.
            assert (us1 = ts'). { rewrite Ets in Eu. apply (stk_len _ _ _ _ _ _ (md_len _ _ _ _ Hm)) in Hu. apply (stk_len _ _ _ _ _ _ (md_len _ _ _ _ Hm)) in Hk0. assert (L2 : length ts2 = length us2).
              { apply (f_equal (@length _)) in Eu. rewrite !app_length in Eu. lia. }
              destruct (split_det ts' us1 ts2 us2 Eu L2) as [-> _]. reflexivity. }
            subst us1. eapply syms_fun; eauto. }
          unfold c_syms. cbn [c_cells]. rewrite map_app. cbn [map csym]. rewrite <- Eg'. exact Hi'.
        * rewrite Est. cbn [map snd]. rewrite map_app, rev_app_distr. cbn [map rev app cent]. rewrite Es, Eh, Ee. reflexivity.
        * rewrite (Hsyms _ Hs'). exact Htk.
        * rewrite Erc. exact Ham.
  Qed.

  (** ** Runs *)
  Notation msteps := (msteps tix rules start ss (gens s) w).
  Lemma sim_init : sim (ps_init P w) c_init.
  Proof.
    constructor; simpl; auto; [|tauto]. exists []. eapply at_init; eauto.
  Qed.
  Lemma mend_fuel c r : mend c r -> r <> OutOfFuel.
  Proof. destruct 1; discriminate. Qed.
  Lemma run_end fuel : forall st c, sim st c -> loop step fuel st <> OutOfFuel -> exists n c', msteps n c c' /\ mend c' (loop step fuel st).
  Proof.
    induction fuel as [|fuel IH]; intros st c Hs Hr; [destruct (Hr eq_refl)|]. cbn [loop] in *. pose proof (sim_step _ _ Hs) as Hst.
    destruct (step st) as [st'|r].
    - destruct Hst as (c1 & H1 & H2). destruct (IH _ _ H2 Hr) as (n & c' & H3 & H4). exists (S n), c'. split; auto. econstructor; eauto.
    - exists 0, c. split; auto. constructor.
  Qed.
  Lemma run_back n c c' r : msteps n c c' -> mend c' r -> forall st, sim st c -> loop step (S n) st = r.
  Proof.
    induction 1 as [c|n c c1 c2 H1 H2 IH]; intros He st Hs; pose proof (sim_step _ _ Hs) as Hst; cbn [loop]; destruct (step st) as [st'|r'].
    - exfalso. destruct Hst as (c1 & H1 & _). eapply mach_end_stuck; eauto.
    - eapply mach_end_det; eauto.
    - destruct Hst as (c1' & H3 & H4). assert (c1' = c1) by (eapply mach_step_det; eauto). subst c1'. exact (IH He st' H4).
    - exfalso. eapply mach_end_stuck; eauto.
  Qed.
  Lemma run_on fuel : forall st c, sim st c -> loop step fuel st = OutOfFuel -> exists c', msteps fuel c c'.
  Proof.
    induction fuel as [|fuel IH]; intros st c Hs Hr; [exists c; constructor|]. cbn [loop] in *. pose proof (sim_step _ _ Hs) as Hst.
    destruct (step st) as [st'|r]; [|exfalso; eapply mend_fuel; eauto].
    destruct Hst as (c1 & H1 & H2). destruct (IH _ _ H2 Hr) as (c' & H3). exists c'. econstructor; eauto.
  Qed.
  Lemma on_run n c c' : msteps n c c' -> forall st, sim st c -> loop step n st = OutOfFuel.
  Proof.
    induction 1 as [c|n c c1 c2 H1 H2 IH]; intros st Hs; [reflexivity|]. pose proof (sim_step _ _ Hs) as Hst; cbn [loop]; destruct (step st) as [st'|r'].
    - destruct Hst as (c1' & H3 & H4). assert (c1' = c1) by (eapply mach_step_det; eauto). subst c1'. auto.
    - exfalso. eapply mach_end_stuck; eauto.
  Qed.

  Theorem mach_ok : (forall r, r <> OutOfFuel -> ((exists fuel, parse_full tix P fuel w = r) <-> mach_ends tix rules start ss (gens s) w r)) /\
    ((forall fuel, parse_full tix P fuel w = OutOfFuel) <-> mach_forever tix rules start ss (gens s) w).
  Proof.
    split; [intros r Hr; split|split].
    - intros [fuel Hf]. unfold parse_full in Hf. subst r. destruct (run_end fuel _ _ sim_init Hr) as (n & c & H1 & H2). exists n, c. auto.
    - intros (n & c & H1 & H2). exists (S n). eapply run_back; eauto. apply sim_init.
    - intros H n. eapply run_on; [apply sim_init|apply H].
    - intros H fuel. destruct (H fuel) as [c Hc]. eapply on_run; eauto. apply sim_init.
  Qed.
End Mach.

(** ** Laziness *)
Section Lazy.
  Context {N T E : Type} (tix : T -> nat) (P : parser N T E).
  Definition with_iter (st : pstate N T) (it : list T) : pstate N T := mk_ps it (ps_state st) (ps_syms st) (ps_buf st) (ps_stack st) (ps_rec st).

  Lemma read_iter_len (st : pstate N T) : exists a, ps_iter st = a ++ ps_iter (ps_read tix st).
  Proof. unfold ps_read. destruct (ps_buf st); [|exists []; auto]. destruct (ps_iter st) as [|x it]; [exists []; auto|exists [x]; auto]. Qed.

  (** a turn that leaves [a ++ z], [z] not empty, in the iterator does not look at [z] *)
  Lemma step_iter st : forall it', ps_iter (ps_read tix st) <> [] -> (forall a, ps_iter st = a ++ ps_iter (ps_read tix st) ->
    match parse_step tix P st with
    | inl st' => ps_iter st' = ps_iter (ps_read tix st) /\ parse_step tix P (with_iter st (a ++ it')) = inl (with_iter st' it')
    | inr (Ok (o, rest)) => rest = ps_iter (ps_read tix st) /\ parse_step tix P (with_iter st (a ++ it')) = inr (Ok (o, it'))
    | inr Panic => parse_step tix P (with_iter st (a ++ it')) = inr Panic
    | inr OutOfFuel => True
    end).
  Proof.
    intros it' Hne a Ha.
    assert (Hread : ps_read tix (with_iter st (a ++ it')) = with_iter (ps_read tix st) it').
    { revert Ha Hne. unfold ps_read. cbn [with_iter ps_buf ps_iter]. destruct (ps_buf st) as [|b buf].
      - destruct (ps_iter st) as [|x it]; cbn [ps_iter]; intros Ha Hne; [congruence|].
        assert (a = [x]) as ->. { change (x :: it) with ([x] ++ it) in Ha. apply app_inv_tail in Ha. auto. }
        reflexivity.
      - intros Ha _. assert (a = []) as ->. { change (ps_iter st) with ([] ++ ps_iter st) in Ha at 1. apply app_inv_tail in Ha. auto. } reflexivity. }
    unfold parse_step. cbv zeta. rewrite Hread. cbn [with_iter ps_buf ps_state ps_stack ps_syms ps_rec ps_iter].
    destruct (ps_buf (ps_read tix st)) as [|[t i] buf]; [auto|].
    destruct (act _ _ t) as [[[q|k|]|]| |]; auto.
    - destruct t; auto.
    - destruct (nth_error _ k) as [r|]; auto. destruct (_ <? _); auto. destruct (reduce_args _ _ _); auto. destruct (nth_error (pr_gens P) k) as [g|]; auto.
      destruct (g a0) as [v|e|]; auto. destruct (aget eqb _ _) as [row|]; auto. destruct (aget eqb (r_lhs r) row); auto.
    - destruct (ps_stack (ps_read tix st)) as [|[q [v j|k j|lo hi|]] l]; auto.
    - destruct (recover _ _ _ _ _ _ _ _) as [[[[[[c st1] rc] bk] hd] eh]|]; auto. destruct (put_back _ _ _ _); auto. destruct (act _ c TErr) as [[[q|k|]|]| |]; auto.
  Qed.

  Lemma iter_shrinks fuel : forall st o rest, loop (parse_step tix P) fuel st = Ok (o, rest) -> rest <> [] ->
    ps_iter (ps_read tix st) <> [] /\ exists a, ps_iter (ps_read tix st) = a ++ rest.
  Proof.
    assert (Hstep : forall st st', parse_step tix P st = inl st' -> ps_iter st' = ps_iter (ps_read tix st)).
    { intros st st'. unfold parse_step. cbv zeta. destruct (ps_buf (ps_read tix st)) as [|[t i] buf]; [discriminate|].
      destruct (act _ _ t) as [[[q|k|]|]| |]; try discriminate.
      - destruct t; try discriminate; intros H; injection H as <-; auto.
      - destruct (nth_error _ k) as [r|]; try discriminate. destruct (_ <? _); try discriminate. destruct (reduce_args _ _ _); try discriminate. destruct (nth_error (pr_gens P) k) as [g|]; try discriminate.
        destruct (g a) as [v|e|]; try discriminate. destruct (aget eqb _ _) as [row|]; try discriminate. destruct (aget eqb (r_lhs r) row); try discriminate. intros H; injection H as <-; auto.
      - destruct (ps_stack (ps_read tix st)) as [|[q [v j|k j|lo hi|]] l]; discriminate.
      - destruct (recover _ _ _ _ _ _ _ _) as [[[[[[c st1] rc] bk] hd] eh]|]; try discriminate. destruct (put_back _ _ _ _); try discriminate. destruct (act _ c TErr) as [[[q|k|]|]| |]; try discriminate. intros H; injection H as <-; auto. }
    assert (Hend : forall st o rest, parse_step tix P st = inr (Ok (o, rest)) -> rest = ps_iter (ps_read tix st)).
    { intros st o rest. unfold parse_step. cbv zeta. destruct (ps_buf (ps_read tix st)) as [|[t i] buf]; [discriminate|].
      destruct (act _ _ t) as [[[q|k|]|]| |]; try discriminate.
      - destruct t; discriminate.
      - destruct (nth_error _ k) as [r|]; try discriminate. destruct (_ <? _); try discriminate. destruct (reduce_args _ _ _); try discriminate. destruct (nth_error (pr_gens P) k) as [g|]; try discriminate.
        destruct (g a) as [v|e|]; try discriminate; [|intros H; injection H as <- <-; auto]. destruct (aget eqb _ _) as [row|]; try discriminate. destruct (aget eqb (r_lhs r) row); discriminate.
      - destruct (ps_stack (ps_read tix st)) as [|[q [v j|k j|lo hi|]] l]; try discriminate. intros H; injection H as <- <-; auto.
      - destruct (recover _ _ _ _ _ _ _ _) as [[[[[[c st1] rc] bk] hd] eh]|]; [|intros H; injection H as <- <-; auto]. destruct (put_back _ _ _ _); try discriminate. destruct (act _ c TErr) as [[[q|k|]|]| |]; discriminate. }
    induction fuel as [|fuel IH]; intros st o rest H Hne; [discriminate|]. cbn [loop] in H. destruct (parse_step tix P st) as [st'|r] eqn:Es.
    - destruct (IH _ _ _ H Hne) as [H1 [a H2]]. destruct (read_iter_len st') as [b Hb]. rewrite (Hstep _ _ Es) in Hb.
      split; [intros Hx; rewrite Hx in Hb; symmetry in Hb; apply app_eq_nil in Hb as [_ Hb]; auto|]. exists (b ++ a). rewrite Hb, H2, app_assoc. auto.
    - subst r. rewrite <- (Hend _ _ _ Es). split; [auto|]. exists []. auto.
  Qed.

  Lemma lazy_loop fuel : forall st o rest a z', loop (parse_step tix P) fuel st = Ok (o, rest) -> rest <> [] -> ps_iter st = a ++ rest ->
    loop (parse_step tix P) fuel (with_iter st (a ++ z')) = Ok (o, z').
  Proof.
    induction fuel as [|fuel IH]; intros st o rest a z' H Hne Ha; [discriminate|]. destruct (iter_shrinks (S fuel) _ _ _ H Hne) as [Hr [b Hb]].
    cbn [loop] in *. destruct (read_iter_len st) as [a1 Ha1].
    assert (a = a1 ++ b) as ->. { apply (app_inv_tail rest). rewrite <- Ha, <- app_assoc, <- Hb. auto. }
    pose proof (step_iter st (b ++ z') Hr a1 Ha1) as Hs. rewrite <- app_assoc.
    destruct (parse_step tix P st) as [st'|r].
    - destruct Hs as [E1 E2]. rewrite E2. apply IH with (rest := rest); auto. rewrite E1. auto.
    - subst r. destruct Hs as [E1 E2]. rewrite E2. assert (b = []) as ->. { apply (app_inv_tail rest). rewrite <- Hb, E1. reflexivity. } reflexivity.
  Qed.
End Lazy.
