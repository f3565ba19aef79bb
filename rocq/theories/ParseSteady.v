(** * In steady grammars with one error rule the number of syntax errors is linear in the length of the input

    The measure of progress is the position where the topmost place for recovery ends: what lies below it is never
    taken back. *)
From Coq Require Import List Arith Lia Bool Sorted.
From Verif Require Import Lib Grammar LrModel LrSpec LrSets LrStates LrNew LrTop LrMono ParseModel Trees ParseSpec ParseInv ParseComplete GramFacts ParseTerm ParseTop ParseMore ParseCover ParseRecTerm SteadySpec.
Import ListNotations.

Lemma snoc_cases {A} (l : list A) : l = [] \/ exists l0 x, l = l0 ++ [x].
Proof. destruct l as [|y l]; auto. right. destruct (@exists_last _ (y :: l)) as (l0 & x & H); [discriminate|]. eauto. Qed.

Section Low.
  Context {N : Type}.
  (** the recorded start of the lowest token or nonterminal; the topmost entry comes first *)
  Fixpoint low (es : list (entry N)) (d : nat) : nat :=
    match es with [] => d | e :: es' => low es' (match e with ENon _ i => i | ETok _ i => i | _ => d end) end.
  Lemma low_app a : forall b d, low (a ++ b) d = low b (low a d).
  Proof. induction a as [|e a IH]; intros b d; simpl; auto. Qed.
  Lemma low_mono es : forall d d', d <= d' -> low es d <= low es d'.
  Proof. induction es as [|e es IH]; intros d d' H; simpl; auto. destruct e; auto. Qed.
  Lemma low_first es : forall d, first_index (rev es) d = low es d.
  Proof.
    assert (G : forall a (e : entry N) d, first_index (a ++ [e]) d = first_index a (match e with ENon _ i => i | ETok _ i => i | _ => d end)).
    { induction a as [|x a IH]; intros e d; simpl; [destruct e; auto|]. destruct x; auto. }
    induction es as [|e es IH]; intros d; auto. simpl. rewrite G, IH. auto.
  Qed.
  Lemma low_upd es : forall d x, fst (fold_left upd es (d, x)) = low es d.
  Proof. induction es as [|e es IH]; intros d x; auto. cbn [fold_left low]. rewrite (surjective_pairing (upd (d, x) e)), IH. destruct e; auto. Qed.
End Low.

Section Steady.
  Context {N T E : Type} (tix : T -> nat).
  Variables (s : syntax N T E) (P : parser N T E) (ws : list warning) (ss : nat) (w : list T).
  Hypothesis Hm : made s P ws ss.
  Hypothesis Hp : productive (gram s).
  Hypothesis Hadj : forall u v, ~ der (gram s) (NT (sx_start s)) (u ++ TErr :: TErr :: v).
  Notation invat := (inv_at tix (gram s) (sx_start s) ss P w).
  Notation stk' := (stk tix (gram s) (sx_start s) ss P w).
  Notation step := (parse_step tix P).
  Let p := pr_tab P.
  Let rs := augment (gram s) (sx_start s) ss.
  Let sr := length (gram s).
  Let Hcan : canonical rs sr p := md_can _ _ _ _ Hm.
  Hypothesis Hsteady : steady (gram s) rs sr.
  Variable k0 : nat.
  Hypothesis Hone : forall k r, nth_error (gram s) k = Some r -> In (TM TErr) (r_rhs r) -> k = k0.

  Definition has_err (q : nat) : bool := match aget eqb q (p_errors p) with Some _ => true | None => false end.
  Lemma has_err_wants g q : state_of p g = Some q -> (has_err q = true <-> wants rs sr g (TM TErr)).
  Proof.
    intros Hq. unfold has_err. pose proof (can_errors _ _ _ Hcan _ _ Hq) as H. destruct (aget eqb q (p_errors p)) as [ks|] eqn:Ee.
    - split; auto. intros _. eapply errors_wants; eauto.
    - split; [discriminate|]. intros (k & i & la & r & H1 & H2 & H3). exfalso. apply (H k). exists i, la, r. auto.
  Qed.
  (** all the rules recovery can name *)
  Lemma ers_one g q ers : state_of p g = Some q -> aget eqb q (p_errors p) = Some ers -> ers <> [] /\ Forall (eq k0) ers.
  Proof.
    intros Hq He. pose proof (can_errors _ _ _ Hcan _ _ Hq) as H. rewrite He in H. destruct H as [H1 H2]. split; auto.
    apply Forall_forall. intros k Hk. apply H2 in Hk as (i & la & r & Hv & Hr & Hx). symmetry.
    assert (Hks : k <> sr).
    { intros ->. unfold rs, sr in Hr. rewrite augment_start in Hr. injection Hr as <-. simpl in Hx. destruct i as [|[|i]]; discriminate. }
    unfold rs in Hr. rewrite augment_old in Hr by auto. eapply Hone; eauto. eapply nth_error_In; eauto.
  Qed.

  (** the entries above the topmost place for recovery *)
  Fixpoint over (cur : nat) (st : list (nat * entry N)) : option (list (entry N)) :=
    if has_err cur then Some [] else match st with [] => None | (q, e) :: st' => option_map (cons e) (over q st') end.

  Lemma over_cut n st g ts : stk' n st g ts -> forall cur dd rh, state_of p g = Some cur -> g = dd ++ rh ->
    (exists j, 0 < j <= length rh /\ wants rs sr (dd ++ firstn j rh) (TM TErr)) \/
    exists q, state_of p dd = Some q /\ over cur st = option_map (app (map snd (firstn (length rh) st))) (over q (skipn (length rh) st)).
  Proof.
    induction 1 as [|st g ts q e X t H IH Hs He Hu]; intros cur dd rh Hcur Eg.
    - symmetry in Eg. apply app_eq_nil in Eg as [-> ->]. right. exists cur. split; auto. cbn [length firstn skipn map]. destruct (over cur []); reflexivity.
    - destruct (snoc_cases rh) as [->|(rh0 & X' & ->)].
      { right. exists cur. rewrite app_nil_r in Eg. subst dd. split; auto. cbn [length firstn skipn map]. destruct (over cur ((q, e) :: st)); reflexivity. }
      rewrite app_assoc in Eg. apply app_inj_tail in Eg as [-> <-]. destruct (has_err cur) eqn:Eh.
      { left. exists (length (rh0 ++ [X])). rewrite firstn_all. split; [rewrite app_length; simpl; lia|]. rewrite app_assoc. apply (has_err_wants _ _ Hcur). auto. }
      destruct (IH q dd rh0 Hs eq_refl) as [(j & Hj & Hw)|(q0 & Hq0 & Ho)].
      + left. exists j. rewrite app_length. simpl. split; [lia|]. rewrite firstn_app. replace (j - length rh0) with 0 by lia. simpl. rewrite app_nil_r. auto.
      + right. exists q0. split; auto. rewrite app_length, Nat.add_comm. cbn [over length Nat.add firstn skipn map snd]. rewrite Eh, Ho. destruct (over q0 (skipn (length rh0) st)); reflexivity.
  Qed.
  Lemma over_some n st g ts : stk' n st g ts -> forall cur es, state_of p g = Some cur -> over cur st = Some es -> exists g1 g2, g = g1 ++ g2 /\ wants rs sr g1 (TM TErr) /\ length g2 = length es.
  Proof.
    induction 1 as [|st g ts q e X t H IH Hs He Hu]; intros cur es Hcur Ho; cbn [over] in Ho.
    - destruct (has_err cur) eqn:Eh; [|discriminate]. exists [], []. split; auto. injection Ho as <-. split; auto. apply (has_err_wants _ _ Hcur). auto.
    - destruct (has_err cur) eqn:Eh.
      + exists (g ++ [X]), []. rewrite app_nil_r. injection Ho as <-. split; auto. split; auto. apply (has_err_wants _ _ Hcur). auto.
      + destruct (over q st) as [es'|] eqn:Eo; [|discriminate]. injection Ho as <-. destruct (IH q es' Hs Eo) as (g1 & g2 & -> & Hw & Hl).
        exists g1, (g2 ++ [X]). rewrite app_assoc. split; auto. split; auto. rewrite app_length. simpl. lia.
  Qed.

  (** what recovery takes off *)
  Lemma recover_over n st g ts : stk' n st g ts -> forall eoi rc back cur head ehead cur' st' rc' back' head' ehead',
    state_of p g = Some cur -> Forall (eq k0) rc -> recover p eoi rc back cur head ehead st = Some (cur', st', rc', back', head', ehead') ->
    Forall (eq k0) rc' /\ has_err cur' = true /\ exists es, over cur st = Some es /\ head' = low es head.
  Proof.
    intros H eoi rc back. assert (Here : forall (g : list sym) (cur : nat) back rc', state_of p g = Some cur -> Forall (eq k0) rc ->
        (if negb eoi || negb back then match aget eqb cur (p_errors p) with Some ers => match rc with [] => Some ers | _ => if disjoint_nat rc ers then None else Some (inter_nat rc ers) end | None => None end else None) = Some rc' ->
        Forall (eq k0) rc' /\ has_err cur = true).
    { intros g' cur back0 rc' Hcur Hrc H0. destruct (negb eoi || negb back0); [|discriminate]. unfold has_err. destruct (aget eqb cur (p_errors p)) as [ers|] eqn:Ee; [|discriminate]. split; auto.
      destruct rc as [|x rc0]; [injection H0 as <-; exact (proj2 (ers_one _ _ _ Hcur Ee))|]. set (l := x :: rc0) in *. clearbody l. destruct (disjoint_nat _ _); [discriminate|]. injection H0 as <-.
      apply Forall_forall. intros y Hy. unfold inter_nat in Hy. apply filter_In in Hy as [Hy _]. rewrite Forall_forall in Hrc. auto. }
    assert (Gone : forall (g : list sym) (cur : nat) back, state_of p g = Some cur -> Forall (eq k0) rc -> (eoi = false \/ back = false) ->
        (if negb eoi || negb back then match aget eqb cur (p_errors p) with Some ers => match rc with [] => Some ers | _ => if disjoint_nat rc ers then None else Some (inter_nat rc ers) end | None => None end else None) = None -> has_err cur = false).
    { intros g' cur back0 Hcur Hrc Hb H0. replace (negb eoi || negb back0) with true in H0 by (destruct Hb as [Hb|Hb]; rewrite Hb; [reflexivity|symmetry; apply orb_true_r]). unfold has_err. destruct (aget eqb cur (p_errors p)) as [ers|] eqn:Ee; auto. exfalso.
      destruct (ers_one _ _ _ Hcur Ee) as [H1 H2]. destruct rc as [|x rc0]; [discriminate|]. destruct (disjoint_nat (x :: rc0) ers) eqn:Ed; [|discriminate].
      unfold disjoint_nat in Ed. cbn [forallb] in Ed. apply andb_true_iff in Ed as [Ed _]. apply negb_true_iff in Ed. destruct ers as [|y ers]; [congruence|].
      inversion Hrc; subst. inversion H2; subst. cbn [existsb] in Ed. rewrite Nat.eqb_refl in Ed. discriminate. }
    assert (Heoi : eoi = true -> forall (st : list (nat * entry N)) q head' ehead', recover p eoi rc true q head' ehead' st = None).
    { intros ->. intros st0. induction st0 as [|[q [v i|k i|lo hi|]] st0 IH0]; intros; cbn [recover negb orb]; auto. }
    revert back. induction H as [|st g ts q e X t H IH Hs He Hu]; intros back cur head ehead cur' st' rc' back' head' ehead' Hcur Hrc Hr; cbn [recover] in Hr.
    - destruct (if negb eoi || negb back then _ else None) as [rc0|] eqn:Eh; [|discriminate]. injection Hr as <- <- <- <- <- <-. destruct (Here _ _ _ _ Hcur Hrc Eh) as [H1 H2]. split; auto. split; auto.
      exists []. cbn [over]. rewrite H2. auto.
    - destruct (if negb eoi || negb back then _ else None) as [rc0|] eqn:Eh.
      { injection Hr as <- <- <- <- <- <-. destruct (Here _ _ _ _ Hcur Hrc Eh) as [H1 H2]. split; auto. split; auto. exists []. cbn [over]. rewrite H2. auto. }
      assert (He0 : eoi = false).
      { destruct eoi eqn:Ee; auto. exfalso. destruct e; rewrite (Heoi eq_refl) in Hr; discriminate. }
      pose proof (Gone _ _ _ Hcur Hrc (or_introl He0) Eh) as Hn.
      assert (G : forall h eh, recover p eoi rc true q h eh st = Some (cur', st', rc', back', head', ehead') -> h = match e with ENon _ i => i | ETok _ i => i | _ => head end ->
         Forall (eq k0) rc' /\ has_err cur' = true /\ exists es, over cur ((q, e) :: st) = Some es /\ head' = low es head).
      { intros h eh H0 ->. destruct (IH _ _ _ _ _ _ _ _ _ _ Hs Hrc H0) as (H1 & H2 & es & H3 & H4). split; auto. split; auto. exists (e :: es). cbn [over low]. rewrite Hn, H3. auto. }
      destruct e; eapply G; eauto.
  Qed.

  Notation viable := (viable s ss).
  Definition settled (B : nat) (st : pstate N T) (pos : nat) : Prop := forall es, over (ps_state st) (ps_stack st) = Some es -> B <= low es pos.
  Definition pending (g : list sym) : Prop := exists d A l, g = d ++ [NT A] /\ opens (gram s) A l /\ wants rs sr (d ++ l) (TM TErr).
  Record going (st : pstate N T) (g : list sym) (pos B L : nat) : Prop := {
    go_pos : B <= pos;
    go_set : settled B st pos \/ pending g /\ viable g (la_at tix w pos);
    go_rec : Forall (eq k0) (ps_rec st);
    go_L : L <= 1;
    go_phase : L = 1 -> B < pos \/ (exists g0, g = g0 ++ [TM TErr]) \/ viable g (la_at tix w pos) }.

  (** the decision in the table *)
  Lemma act_of st g ts pos d : invat st g ts pos -> decides rs sr p g (la_at tix w pos) d ->
    exists i buf, ps_buf (ps_read tix st) = (la_at tix w pos, i) :: buf /\ act p (ps_state st) (la_at tix w pos) = Ok d /\ (pos < length w -> i = pos) /\ ps_syms (ps_read tix st) = ps_syms (ps_read tix st) /\ pos <= length (ps_syms (ps_read tix st)) /\
      ps_state (ps_read tix st) = ps_state st /\ ps_stack (ps_read tix st) = ps_stack st /\ ps_rec (ps_read tix st) = ps_rec st.
  Proof.
    intros Hinv Hd. destruct (read_inv tix _ _ _ _ _ (md_len _ _ _ _ Hm) _ _ _ _ Hinv) as [Hread (t0 & i0 & buf0 & Eb0 & Hla)].
    assert (Et : t0 = la_at tix w pos).
    { unfold la_at. destruct Hla as [(x & -> & -> & _)|(-> & _ & -> & _)]; auto. rewrite (proj2 (nth_error_None _ _)); auto. }
    exists i0, buf0. rewrite <- Et. split; auto. split.
    { pose proof (inv_state _ _ _ _ _ _ _ _ _ _ Hinv) as Hst. destruct (act_state (gram s) (sx_start s) ss P Hcan _ _ t0 Hst) as (d' & Ha & Hd'). fold p in Ha. rewrite Ha. f_equal. rewrite Et in Hd'. eapply decides_det; eauto. }
    split; [intros Hlt; destruct Hla as [(x & _ & _ & H & _)|(_ & _ & H & _)]; [auto|lia]|]. split; auto. split; [exact (inv_pos _ _ _ _ _ _ _ _ _ _ Hread)|].
    unfold ps_read. destruct (ps_buf st); auto. destruct (ps_iter st); auto.
  Qed.

  (** at a pending place that is not final, recovery is possible *)
  Lemma pending_steady st g ts pos X : invat st g ts pos -> pending g -> wants rs sr g X -> has_err (ps_state st) = true \/ over (ps_state st) (ps_stack st) = None.
  Proof.
    intros Hinv (d & A & l & -> & Ho & Hw) HX. pose proof (inv_state _ _ _ _ _ _ _ _ _ _ Hinv) as Hst. fold p in Hst.
    destruct (has_err (ps_state st)) eqn:Eh; auto. right. destruct (over (ps_state st) (ps_stack st)) as [es|] eqn:Eo; auto. exfalso.
    destruct (over_some _ _ _ _ (inv_stk _ _ _ _ _ _ _ _ _ _ Hinv) _ _ Hst Eo) as (g1 & g2 & Eg & Hw1 & Hl).
    destruct (snoc_cases g2) as [->|(g3 & Y & ->)].
    { rewrite app_nil_r in Eg. subst g1. apply (has_err_wants _ _ Hst) in Hw1. congruence. }
    rewrite app_assoc in Eg. apply app_inj_tail in Eg as [-> <-]. rewrite <- app_assoc in *.
    pose proof (Hsteady g1 g3 A l X Hw1 Ho Hw HX) as Hw2. rewrite app_assoc in Hst, Hw2. apply (has_err_wants _ _ Hst) in Hw2. congruence.
  Qed.

  (** pushing an entry that starts at [i] at such a place *)
  Lemma settled_push B pos st e i cur stk0 : (forall d, match e with ENon _ j => j | ETok _ j => j | _ => d end = i) -> B <= i -> B <= pos ->
    has_err cur = true \/ over cur stk0 = None -> ps_stack st = (cur, e) :: stk0 -> settled B st pos.
  Proof.
    intros He Hi Hpos Hc Es es Ho. rewrite Es in Ho. cbn [over] in Ho. destruct (has_err (ps_state st)); [injection Ho as <-; exact Hpos|].
    destruct Hc as [Hc|Hc]; [|rewrite Hc in Ho; discriminate]. destruct stk0 as [|[q1 e1] stk1]; cbn [over] in Ho; rewrite Hc in Ho; injection Ho as <-; cbn [low]; rewrite (He pos); exact Hi.
  Qed.

  Lemma go_step st g ts pos B L st' : invat st g ts pos -> going st g pos B L -> step_error tix P st = None -> step st = inl st' ->
    exists g' ts' pos', invat st' g' ts' pos' /\ going st' g' pos' B L.
  Proof.
    intros Hinv Hg He Hs. destruct (cases tix s P ws ss w Hm _ _ _ _ Hinv) as (d & Hd & Hc). rewrite (err_spec tix s P ws ss w Hm _ _ _ _ _ Hinv Hd) in He.
    destruct (act_of _ _ _ _ _ Hinv Hd) as (i & buf & Eb & Hact & Hi & _ & Hlen & Hq & Hk & Hrc). destruct Hg as [G1 G2 G3 G4 G5].
    destruct d as [[q|k|]|]; [| | |discriminate]; cbn [step_case] in Hc.
    - destruct Hc as (_ & Hlt & st1 & Hs1 & Hi'). assert (st1 = st') by congruence. subst st1. clear Hs1. specialize (Hi Hlt). subst i.
      unfold parse_step in Hs. cbv zeta in Hs. rewrite Eb in Hs. fold p in Hs. rewrite Hq, Hact, Hk, Hrc in Hs.
      assert (Hla : exists k, la_at tix w pos = TSym k) by (unfold la_at; destruct (nth_error w pos) eqn:Ex; [eauto|apply nth_error_None in Ex; lia]). destruct Hla as [k Hla]. rewrite Hla in Hs. injection Hs as <-.
      exists (g ++ [TM (la_at tix w pos)]), (ts ++ [Leaf pos]), (S pos). split; [exact Hi'|]. constructor; [lia| |exact G3|exact G4|intros _; left; lia].
      left. destruct G2 as [G2|[G2 _]].
      + intros es Ho. cbn [ps_state ps_stack over] in Ho. destruct (has_err q); [injection Ho as <-; simpl; lia|]. destruct (over (ps_state st) (ps_stack st)) as [es'|] eqn:Eo; [|discriminate]. injection Ho as <-. cbn [low]. auto.
      + apply (settled_push B (S pos) _ (ETok k pos) pos (ps_state st) (ps_stack st)); auto. eapply pending_steady; eauto. apply Hd.
    - destruct Hc as [(r & _ & _ & H & _)|(r & dd & ts1 & ts2 & args & gen & E1 & E2 & E3 & _ & _ & _ & _ & _ & _ & E9)]; [congruence|].
      destruct (gen args) as [v|e|]; [|destruct E9 as [it E9]; congruence|congruence]. destruct E9 as (st1 & Hs1 & Hi'). assert (st1 = st') by congruence. subst st1. clear Hs1.
      simpl in Hd. destruct Hd as (_ & _ & Hks & Hcm & _).
      assert (Hvi : viable (dd ++ [NT (r_lhs r)]) (la_at tix w pos)) by (eapply viable_reduce; eauto).
      assert (Hin : In r (gram s)) by (rewrite augment_old in E1 by auto; eapply nth_error_In; eauto).
      unfold parse_step in Hs. cbv zeta in Hs. rewrite Eb in Hs. fold p in Hs. rewrite Hq, Hact, Hk, Hrc in Hs.
      replace (p_rules p) with rs in Hs by (symmetry; apply (can_rules _ _ _ Hcan)). unfold rs in Hs. rewrite E1 in Hs.
      destruct (length (ps_stack st) <? length (r_rhs r)); [discriminate|]. destruct (reduce_args _ _ _) as [args'| |]; try discriminate. destruct (nth_error (pr_gens P) k) as [gen'|]; [|discriminate].
      destruct (gen' args') as [v'|e|]; try discriminate. destruct (aget eqb _ (p_goto p)) as [row|]; [|discriminate]. destruct (aget eqb (r_lhs r) row) as [q|]; [|discriminate]. injection Hs as <-.
      rewrite map_rev, low_first in Hi'. rewrite map_rev, low_first. set (cur := match rev (firstn (length (r_rhs r)) (ps_stack st)) with [] => ps_state st | (q0, _) :: _ => q0 end) in *. clearbody cur.
      exists (dd ++ [NT (r_lhs r)]), (ts1 ++ [Node k ts2]), pos. split; [exact Hi'|].
      pose proof (inv_stk _ _ _ _ _ _ _ _ _ _ Hi') as Hstk'. cbn [ps_stack ps_syms] in Hstk'. assert (Hcur : state_of p dd = Some cur) by (inversion Hstk' as [|st0 g0 ts0 q0 e0 X0 t0 _ Hcur _ _ Ea Eg Et]; apply app_inj_tail in Eg as [Eg _]; rewrite <- Eg; exact Hcur).
      pose proof (inv_state _ _ _ _ _ _ _ _ _ _ Hinv) as Hst.
      constructor; [exact G1| |cbn [ps_rec]; destruct (existsb _ _); [constructor|exact G3]|exact G4|intros _; right; right; exact Hvi].
      destruct G2 as [G2|[G2 _]].
      + destruct (over_cut _ _ _ _ (inv_stk _ _ _ _ _ _ _ _ _ _ Hinv) _ dd (r_rhs r) Hst E2) as [(j & Hj & Hw)|(q0 & Hq0 & Ho)].
        { right. split; auto. exists dd, (r_lhs r), (firstn j (r_rhs r)). split; auto. split; auto. constructor; auto. }
        left. intros es Hes. cbn [ps_state ps_stack over] in Hes. destruct (has_err q); [injection Hes as <-; exact G1|].
        assert (q0 = cur) by (fold p in Hcur; congruence). subst q0. unfold settled in G2. rewrite Ho in G2.
        destruct (over cur (skipn (length (r_rhs r)) (ps_stack st))) as [es'|]; [|discriminate]. injection Hes as <-. cbn [low]. specialize (G2 _ eq_refl). rewrite low_app in G2.
        eapply Nat.le_trans; [exact G2|]. apply low_mono, low_mono. exact Hlen.
      + destruct (snoc_cases (r_rhs r)) as [Er|(rh & X & Er)].
        * left. rewrite Er in *. rewrite app_nil_r in *. subst dd. cbn [length firstn skipn map low] in *. assert (cur = ps_state st) by (fold p in Hcur; fold p in Hst; congruence). subst cur.
          eapply (settled_push B pos _ (ENon v' (length (ps_syms (ps_read tix st)))) _ (ps_state st) (ps_stack st)); [reflexivity|lia|exact G1| |reflexivity]. exact (pending_steady _ _ _ _ _ Hinv G2 E3).
        * right. split; auto. destruct G2 as (d & A & l & Eg & Ho & Hw). rewrite E2, Er, app_assoc in Eg. apply app_inj_tail in Eg as [<- ->].
          exists dd, (r_lhs r), (rh ++ l). split; auto. split; [|rewrite app_assoc; exact Hw].
          replace rh with (firstn (length rh) (r_rhs r)) by (rewrite Er, firstn_app, firstn_all, Nat.sub_diag; simpl; apply app_nil_r). apply (opens_in _ r _ A l); auto. rewrite Er, nth_error_app2, Nat.sub_diag by lia. reflexivity.
    - destruct Hc as (_ & _ & _ & t & v & _ & _ & H). congruence.
  Qed.

  Lemma go_error st g ts pos B L st' : invat st g ts pos -> going st g pos B L -> step_error tix P st <> None -> step st = inl st' ->
    exists g' ts' pos' B' L', invat st' g' ts' pos' /\ going st' g' pos' B' L' /\ 2 * B + L < 2 * B' + L'.
  Proof.
    intros Hinv Hg He Hs. destruct (cases tix s P ws ss w Hm _ _ _ _ Hinv) as (d & Hd & Hc). rewrite (err_spec tix s P ws ss w Hm _ _ _ _ _ Hinv Hd) in He.
    destruct d; [congruence|]. clear He. destruct (act_of _ _ _ _ _ Hinv Hd) as (i & buf & Eb & Hact & Hi & _ & Hlen & Hq & Hk & Hrc). destruct Hg as [G1 G2 G3 G4 G5].
    assert (Hnv : ~ viable g (la_at tix w pos)) by (intros H; exact (viable_decides s P ss _ _ H Hd)).
    destruct G2 as [G2|[_ G2]]; [|contradiction].
    destruct Hc as (_ & [(it & H & _)|(st1 & Hs1 & _ & g' & ts' & ts2 & lo & hi & pos' & _ & Hwg' & _ & _ & _ & Hi')]); [congruence|]. assert (st1 = st') by congruence. subst st1. clear Hs1.
    pose proof (inv_state _ _ _ _ _ _ _ _ _ _ Hinv) as Hst. fold p in Hst.
    destruct (step_shape tix P st st' Hs) as [_ Hsyms].
    pose proof Hs as Hs0. unfold parse_step in Hs. cbv zeta in Hs. rewrite Eb in Hs. fold p in Hs. rewrite Hq, Hact, Hk, Hrc in Hs.
    destruct (recover _ _ _ _ _ _ _ _) as [[[[[[cur st1] rc] back] head] ehead]|] eqn:Er; [|discriminate].
    destruct (put_back _ _ _ _) as [pb| |] eqn:Epb; try discriminate. destruct (act p cur TErr) as [[[q|k|]|]| |]; try discriminate.
    destruct (recover_over _ _ _ _ (inv_stk _ _ _ _ _ _ _ _ _ _ Hinv) _ _ _ _ _ _ _ _ _ _ _ _ Hst G3 Er) as (R1 & R2 & es & R3 & R4).
    destruct (rec_pos tix s P ws ss w Hm st g ts pos st' _ _ pos' _ i buf cur st1 rc back head ehead pb Hinv Hi' Hsyms Eb) as [Epos Heoi].
    { rewrite Hrc, Hq. exact Er. }
    { exact Epb. }
    { injection Hs as <-. cbn [ps_buf]. rewrite ?Eb. reflexivity. }
    assert (Hset : settled pos' st' pos').
    { injection Hs as <-. intros es' Ho. cbn [ps_state ps_stack over] in Ho. destruct (has_err q); [injection Ho as <-; auto|].
      destruct st1 as [|[q1 e1] st1]; cbn [over] in Ho; rewrite R2 in Ho; injection Ho as <-; simpl; auto. }
    assert (Hrc' : Forall (eq k0) (ps_rec st')) by (injection Hs as <-; exact R1).
    destruct back.
    - (* symbols were taken off *)
      exists (g' ++ [TM TErr]), (ts' ++ [Bad lo hi]), pos', pos', 0. split; [exact Hi'|]. split; [constructor; auto; discriminate|].
      assert (Hlt : pos < length w).
      { destruct (Nat.lt_ge_cases pos (length w)) as [|Hge]; auto. exfalso. assert (la_at tix w pos = TEoi) by (unfold la_at; rewrite (proj2 (nth_error_None _ _) Hge); reflexivity). specialize (Heoi H). discriminate. }
      specialize (Hi Hlt). subst i. specialize (G2 es R3). rewrite <- R4 in G2. lia.
    - exists (g' ++ [TM TErr]), (ts' ++ [Bad lo hi]), pos', pos', 1. split; [exact Hi'|]. split; [constructor; auto; intros _; right; left; eauto|].
      subst pos'. destruct L as [|[|L]]; [lia| |lia]. destruct (G5 eq_refl) as [G|[(g0 & ->)|G]]; [lia| |contradiction]. exfalso.
      apply (no_two_errors s P ws ss Hm Hp Hadj g0). eapply (has_err_wants _ _ Hst).
      destruct (recover_pops P _ _ _ _ _ _ _ _ _ _ _ _ _ Er) as (popped & Epop & _ & Hb1 & _). destruct (Hb1 eq_refl) as [-> _].
      destruct es as [|e0 es]; [|exfalso].
      + destruct (ps_stack st) as [|[q1 e1] l]; cbn [over] in R3; destruct (has_err (ps_state st)); auto; [discriminate|]. destruct (over q1 l); discriminate.
      + revert Er. destruct (ps_stack st) as [|[q1 e1] l] eqn:Es; cbn [over] in R3; destruct (has_err (ps_state st)) eqn:Eh; try discriminate.
        unfold has_err in Eh. cbn [recover]. destruct (aget eqb (ps_state st) (p_errors p)); [discriminate|]. intros Er.
        replace (if negb match la_at tix w pos with TEoi => true | _ => false end || negb false then None else None) with (@None (list nat)) in Er by (destruct (negb _ || _); reflexivity).
        destruct e1; apply (recover_pops P) in Er as (pp & _ & _ & Hx & _); destruct (Hx eq_refl); discriminate.
  Qed.

  Lemma count fuel : forall st g ts pos B L, invat st g ts pos -> going st g pos B L -> length (errors tix P fuel st) + 2 * B + L <= 2 * length w + 2.
  Proof.
    induction fuel as [|fuel IH]; intros st g ts pos B L Hinv Hg.
    all: assert (Hle : pos <= length w) by (pose proof (inv_pos _ _ _ _ _ _ _ _ _ _ Hinv) as H1; pose proof (inv_input _ _ _ _ _ _ _ _ _ _ Hinv) as H2; apply (f_equal (@length _)) in H2; rewrite app_length in H2; lia).
    all: pose proof (go_pos _ _ _ _ _ Hg); pose proof (go_L _ _ _ _ _ Hg).
    { simpl. lia. }
    cbn [errors]. rewrite app_length. destruct (step_error tix P st) as [c|] eqn:Ee.
    - destruct (parse_step tix P st) as [st'|] eqn:Es; [|simpl; lia].
      destruct (go_error _ _ _ _ _ _ _ Hinv Hg ltac:(congruence) Es) as (g' & ts' & pos' & B' & L' & Hi & Hg' & Hlt). specialize (IH _ _ _ _ _ _ Hi Hg'). simpl length. lia.
    - destruct (parse_step tix P st) as [st'|] eqn:Es; [|simpl; lia].
      destruct (go_step _ _ _ _ _ _ _ Hinv Hg Ee Es) as (g' & ts' & pos' & Hi & Hg'). specialize (IH _ _ _ _ _ _ Hi Hg'). simpl length. lia.
  Qed.
  Theorem errors_linear fuel : length (parse_errors tix P fuel w) <= 2 * length w + 2.
  Proof.
    unfold parse_errors. pose proof (count fuel (ps_init P w) [] [] 0 0 0 (at_init tix s P ss w)) as H.
    assert (Hg : going (ps_init P w) [] 0 0 0) by (constructor; auto; [left; intros es _; apply Nat.le_0_l|simpl; constructor|discriminate]).
    specialize (H Hg). lia.
  Qed.
End Steady.
