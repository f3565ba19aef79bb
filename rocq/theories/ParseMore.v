(** * Calls, errors and prefixes along runs *)
From Coq Require Import List Arith Lia Bool Sorted.
From Verif Require Import Lib Grammar LrModel LrSpec LrSets LrStates LrNew LrTop LrMono ParseModel Trees ParseSpec ParseInv ParseComplete GramFacts ParseTerm ParseTop.
Import ListNotations.

Lemma lmap_app {N T E A B} (f : A -> list (nat * list (arg N T)) * gres B E) l1 l2 c1 b1 : lmap f l1 = (c1, GOk b1) ->
  lmap f (l1 ++ l2) = (c1 ++ fst (lmap f l2), gbind (snd (lmap f l2)) (fun b2 => GOk (b1 ++ b2))).
Proof.
  revert c1 b1. induction l1 as [|a l1 IH]; intros c1 b1 H; cbn [lmap app] in *.
  - injection H as <- <-. destruct (lmap f l2) as [c [b| |]]; reflexivity.
  - destruct (f a) as [c [b| |]]; try discriminate. destruct (lmap f l1) as [c' [b'| |]] eqn:El; cbn [fst snd gbind] in H; try discriminate.
    injection H as <- <-. rewrite (IH _ _ eq_refl). cbn [fst snd]. destruct (lmap f l2) as [c2 [b2| |]]; cbn [fst snd gbind]; rewrite app_assoc; reflexivity.
Qed.
Lemma lmap_app_inv {N T E A B} (f : A -> list (nat * list (arg N T)) * gres B E) l1 l2 c b : lmap f (l1 ++ l2) = (c, GOk b) ->
  exists c1 b1 c2 b2, lmap f l1 = (c1, GOk b1) /\ lmap f l2 = (c2, GOk b2) /\ c = c1 ++ c2 /\ b = b1 ++ b2.
Proof.
  revert c b. induction l1 as [|a l1 IH]; intros c b H; cbn [lmap app] in *.
  - exists [], [], c, b. auto.
  - destruct (f a) as [ca [ba| |]]; try discriminate. destruct (lmap f (l1 ++ l2)) as [c' [b'| |]] eqn:El; cbn [fst snd gbind] in H; try discriminate.
    injection H as <- <-. destruct (IH _ _ eq_refl) as (c1 & b1 & c2 & b2 & -> & -> & -> & ->). cbn [fst snd gbind].
    exists (ca ++ c1), (ba :: b1), c2, b2. rewrite app_assoc. auto.
Qed.

Section More.
  Context {N T E : Type} (tix : T -> nat).
  Variables (s : syntax N T E) (P : parser N T E) (ws : list warning) (ss : nat) (w : list T).
  Hypothesis Hm : made s P ws ss.
  Notation rules := (gram s).
  Notation start := (sx_start s).
  Notation rs := (augment rules start ss).
  Notation sr := (length rules).
  Notation invat := (inv_at tix rules start ss P w).
  Notation step := (parse_step tix P).
  Notation evlP := (evl (pr_gens P) w).

  Lemma errfree_noerr : error_free s <-> noerr rules.
  Proof. unfold error_free, noerr. split; auto. Qed.

  (** ** The calls of a run are those of the evaluation of the tree *)
  Lemma log_from : error_free s -> forall fuel st g ts pos v it L0 as0, invat st g ts pos -> lmap evlP ts = (L0, GOk as0) ->
    loop step fuel st = Ok (ROk v, it) ->
    exists t, twf tix rs w (NT start) t /\ leaves t = seq 0 (length w) /\ evlP t = (L0 ++ calls tix P fuel st, GOk (NonTerminal v)).
  Proof.
    intros Hne. assert (Hn : noerr rules) by (apply errfree_noerr; auto).
    induction fuel as [|fuel IH]; intros st g ts pos v it L0 as0 Hinv Hlog Hl; [discriminate|]. cbn [calls]. simpl in Hl.
    destruct (cases tix s P ws ss w Hm _ _ _ _ Hinv) as (d & Hd & Hc). destruct d as [[q|k|]|]; cbn [step_case] in Hc.
    - destruct Hc as (-> & Hlt & s' & Hs & Hi). rewrite Hs in *. cbn [app].
      destruct (nth_error w pos) as [x|] eqn:Ex; [|apply nth_error_None in Ex; lia].
      eapply IH; [exact Hi| |exact Hl]. rewrite (lmap_app _ _ _ _ _ Hlog). cbn [lmap evl ev]. rewrite Ex. cbn. rewrite app_nil_r. reflexivity.
    - destruct Hc as [(r & _ & _ & Hs & _)|(r & dd & ts1 & ts2 & args & gen & Hr & _ & _ & -> & Ets & _ & Htw & Ha & Hg & Hc)].
      { rewrite Hs in Hl. discriminate. }
      destruct (gen args) as [u|e|] eqn:Eg.
      + destruct Hc as (s' & Hs & Hi). rewrite Hs in *. 
        rewrite Ets in Hlog. apply lmap_app_inv in Hlog as (c1 & b1 & c2 & b2 & A1 & A2 & -> & ->).
        assert (b2 = args).
        { pose proof (f_equal snd A2) as A3. rewrite lmap_snd in A3. simpl in A3.
          assert (A4 : gmap (fun a => snd (evlP a)) ts2 = gmap (ev (pr_gens P) w) ts2).
          { clear. induction ts2 as [|t l IHl]; auto. cbn [gmap]. rewrite evl_snd, IHl. auto. }
          rewrite A4, Ha in A3. congruence. }
        subst b2. rewrite app_assoc. eapply IH; [exact Hi| |exact Hl]. rewrite (lmap_app _ _ _ _ _ A1). cbn [lmap]. cbn [evl]. rewrite A2. unfold call. rewrite Hg, Eg. cbn. rewrite app_nil_r, app_assoc. reflexivity.
      + destruct Hc as (it' & Hs). rewrite Hs in Hl. discriminate.
      + rewrite Hc in Hl. discriminate.
    - destruct Hc as (-> & Hp & -> & t & v' & -> & Hev & Hs). rewrite Hs in Hl |- *. injection Hl as -> <-. cbn [app].
      exists t.
      assert (Htw : twfs tix rs w [NT start] [t]).
      { refine (inv_twfs _ _ _ _ _ _ _ _ _ _ _ _ Hinv); [apply (md_len _ _ _ _ Hm)|]. right. simpl. intros [H|[]]; discriminate. }
      inversion Htw; subst. split; auto. split.
      { pose proof (inv_noerr _ _ _ _ _ _ _ _ _ _ Hinv Hn) as [Hlv _]. simpl in Hlv. rewrite app_nil_r in Hlv. auto. }
      cbn [lmap] in Hlog. rewrite app_nil_r. pose proof (evl_snd (pr_gens P) w t) as Hsnd. rewrite Hev in Hsnd. destruct (evlP t) as [c rr]. simpl in Hsnd. subst rr.
      simpl in Hlog. rewrite app_nil_r in Hlog. injection Hlog as -> _. reflexivity.
    - destruct Hc as (_ & [(it' & Hs & _)|(s' & _ & Hx & _)]); [|tauto]. rewrite Hs in Hl. discriminate.
  Qed.

  (** all calls but a last failing one succeed *)
  Lemma calls_end fuel : forall st g ts pos, invat st g ts pos ->
    match loop step fuel st with
    | Ok (RReducer e, _) => exists L k args, calls tix P fuel st = L ++ [(k, args)] /\ call (gens s) k args = GErr e /\ Forall (fun c => exists v, call (gens s) (fst c) (snd c) = GOk v) L
    | Panic => (exists L k args, calls tix P fuel st = L ++ [(k, args)] /\ call (gens s) k args = GPanic /\ Forall (fun c => exists v, call (gens s) (fst c) (snd c) = GOk v) L) \/ (w = [] /\ ~ error_free s)
    | _ => Forall (fun c => exists v, call (gens s) (fst c) (snd c) = GOk v) (calls tix P fuel st)
    end.
  Proof.
    induction fuel as [|fuel IH]; intros st g ts pos Hinv; [constructor|]. cbn [calls loop].
    destruct (cases tix s P ws ss w Hm _ _ _ _ Hinv) as (d & Hd & Hc). destruct d as [[q|k|]|]; cbn [step_case] in Hc.
    - destruct Hc as (-> & _ & s' & -> & Hi). cbn [app]. eapply IH; eauto.
    - destruct Hd as (_ & _ & Hk & _).
      destruct Hc as [(r & Hr & -> & -> & Hw & Hin)|(r & dd & ts1 & ts2 & args & gen & Hr & _ & _ & -> & Ets & _ & Htw & Ha & Hg & Hc)].
      { right. split; auto. intros Hne. apply (Hne r); auto. apply (rule_old s ss) in Hr; auto. eapply nth_error_In; eauto. }
      assert (Hcall : call (gens s) k args = gen args). { unfold call. rewrite (gens_old s P ws ss Hm k gen Hk Hg). auto. }
      destruct (gen args) as [v|e|].
      + destruct Hc as (s' & -> & Hi). specialize (IH _ _ _ _ Hi). cbn [app].
        assert (H1 : exists v, call (gens s) (fst (k, args)) (snd (k, args)) = GOk v) by (exists v; auto).
        destruct (loop step fuel s') as [[[v'| |e'] it]| |].
        * constructor; auto.
        * constructor; auto.
        * destruct IH as (L & k' & a' & -> & A2 & A3). exists ((k, args) :: L), k', a'. split; auto.
        * destruct IH as [(L & k' & a' & -> & A2 & A3)|IH]; [|auto]. left. exists ((k, args) :: L), k', a'. split; auto.
        * constructor; auto.
      + destruct Hc as (it & ->). exists [], k, args. split; auto.
      + rewrite Hc. left. exists [], k, args. split; auto.
    - destruct Hc as (-> & _ & _ & t & v & _ & _ & ->). constructor.
    - destruct Hc as (-> & [(it & -> & _)|(s' & -> & _ & g' & ts' & ts2 & lo & hi & pos' & _ & _ & _ & _ & _ & Hi)]); cbn [app]; [constructor|]. eapply IH; eauto.
  Qed.


  (** ** Errors *)
  Lemma err_spec st g ts pos d : invat st g ts pos -> decides rs sr (pr_tab P) g (la_at tix w pos) d ->
    step_error tix P st = match d with None => Some (la_at tix w pos, if pos <? length w then pos else 0) | Some _ => None end.
  Proof. apply error_spec; [apply (md_can _ _ _ _ Hm)|apply (md_len _ _ _ _ Hm)]. Qed.

  Lemma turns_inv st : turns tix P w st -> exists g ts pos, invat st g ts pos.
  Proof.
    induction 1 as [|st st' H (g & ts & pos & Hinv) Hs]; [exists [], [], 0; apply at_init|].
    destruct (cases tix s P ws ss w Hm _ _ _ _ Hinv) as (d & Hd & Hc). destruct d as [[q|k|]|]; cbn [step_case] in Hc.
    - destruct Hc as (_ & _ & s' & Hs' & Hi). rewrite Hs in Hs'. injection Hs' as <-. eauto.
    - destruct Hc as [(r & Hr & _ & Hx & Hw & Hin)|(r & dd & ts1 & ts2 & args & gen & Hr & _ & _ & _ & Ets & _ & Htw & Ha & Hg & Hc)]; [congruence|].
      destruct (gen args) as [v|e|].
      + destruct Hc as (s' & Hs' & Hi). rewrite Hs in Hs'. injection Hs' as <-. eauto.
      + destruct Hc as [it Hc]. congruence.
      + congruence.
    - destruct Hc as (_ & _ & _ & t & v & _ & _ & Hx). congruence.
    - destruct Hc as (_ & [(it & Hx & _)|(s' & Hs' & _ & g' & ts' & ts2 & lo & hi & pos' & _ & _ & _ & _ & _ & Hi)]); [congruence|].
      rewrite Hs in Hs'. injection Hs' as <-. eauto.
  Qed.

  (** the slices are those of the error leaves *)
  Lemma slice_of_tree ts args sl : gmap (ev (pr_gens P) w) ts = GOk args -> In (ErrorSym sl) args ->
    exists lo hi, In (Bad lo hi) ts /\ sl = firstn (S hi - lo) (skipn lo w).
  Proof.
    revert args. induction ts as [|t ts IH]; intros args Ha Hin; cbn [gmap] in Ha; [injection Ha as <-; destruct Hin|].
    destruct (ev (pr_gens P) w t) as [a| |] eqn:Et; try discriminate. cbn [gbind] in Ha.
    destruct (gmap (ev (pr_gens P) w) ts) as [bs| |]; try discriminate. cbn [gbind] in Ha. injection Ha as <-.
    destruct Hin as [->|Hin].
    - destruct t as [i|lo hi|k l]; cbn [ev] in Et.
      + destruct (nth_error w i); discriminate.
      + injection Et as <-. exists lo, hi. split; [left; auto|auto].
      + destruct (gmap (ev (pr_gens P) w) l) as [al| |]; try discriminate. cbn [gbind] in Et. destruct (call (pr_gens P) k al); discriminate.
    - destruct (IH _ eq_refl Hin) as (lo & hi & H1 & H2). exists lo, hi. split; [right; auto|auto].
  Qed.

  (** where an error slice comes from *)
  Definition slice_from (ES : list (term * nat)) (lo hi : nat) : Prop := lo <= hi /\
    ((exists k, In (TSym k, hi) ES /\ exists x, nth_error w hi = Some x /\ tix x = k) \/ (In (TEoi, 0) ES /\ lo = 0 /\ hi = 0)).
  Lemma slice_from_app ES ES' lo hi : slice_from ES lo hi -> slice_from (ES ++ ES') lo hi.
  Proof.
    intros [H0 [(k & H1 & H2)|(H1 & H2)]]; (split; [auto|]); [left; exists k; split; auto; apply in_or_app; auto|right; split; auto; apply in_or_app; auto].
  Qed.
  Lemma slices_from fuel : forall st g ts pos ES, invat st g ts pos -> (forall lo hi, In (Bad lo hi) ts -> slice_from ES lo hi) ->
    forall c sl, In c (calls tix P fuel st) -> In (ErrorSym sl) (snd c) ->
    exists lo hi, slice_from (ES ++ errors tix P fuel st) lo hi /\ sl = firstn (S hi - lo) (skipn lo w).
  Proof.
    induction fuel as [|fuel IH]; intros st g ts pos ES Hinv HB c sl Hc0 Hsl; [destruct Hc0|]. cbn [calls errors] in *.
    destruct (cases tix s P ws ss w Hm _ _ _ _ Hinv) as (d & Hd & Hc). rewrite (err_spec _ _ _ _ _ Hinv Hd). destruct d as [[q|k|]|]; cbn [step_case] in Hc.
    - destruct Hc as (E0 & _ & s' & Hs & Hi). rewrite E0, Hs in *. cbn [app] in *. eapply IH; eauto. intros lo hi H. apply in_app_or in H as [H|[H|[]]]; [auto|discriminate].
    - destruct Hc as [(r & Hr & E0 & Hx & Hw & Hin)|(r & dd & ts1 & ts2 & args & gen & Hr & _ & _ & E0 & Ets & _ & Htw & Ha & Hg & Hc)].
      { rewrite E0, Hx in Hc0. destruct Hc0. }
      rewrite E0 in Hc0. cbn [app] in *. destruct Hc0 as [<-|Hc0].
      { destruct (slice_of_tree _ _ _ Ha Hsl) as (lo & hi & H1 & H2). exists lo, hi. split; auto. apply slice_from_app. apply HB. rewrite Ets. apply in_or_app. auto. }
      destruct (gen args) as [v|e|].
      + destruct Hc as (s' & Hs & Hi). rewrite Hs in *. eapply IH; eauto. intros lo hi H. apply in_app_or in H as [H|[H|[]]]; [|discriminate]. apply HB. rewrite Ets. apply in_or_app. auto.
      + destruct Hc as [it Hs]. rewrite Hs in Hc0. destruct Hc0.
      + rewrite Hc in Hc0. destruct Hc0.
    - destruct Hc as (E0 & _ & _ & t & v & _ & _ & Hx). rewrite E0, Hx in Hc0. destruct Hc0.
    - destruct Hc as (E0 & [(it & Hx & _)|(s' & Hs & _ & g' & ts' & ts2 & lo & hi & pos' & Ets & _ & Hlh & C1 & C2 & Hi)]); rewrite E0 in Hc0.
      { rewrite Hx in Hc0. destruct Hc0. }
      rewrite Hs in *. cbn [app] in Hc0.
      destruct (IH _ _ _ _ (ES ++ [(la_at tix w pos, if pos <? length w then pos else 0)]) Hi) with (c := c) (sl := sl) as (lo' & hi' & H1 & H2); auto.
      { intros lo0 hi0 H. apply in_app_or in H as [H|[H|[]]].
        - apply slice_from_app, HB. rewrite Ets. apply in_or_app. auto.
        - injection H as <- <-. split; auto. unfold la_at. pose proof (inv_pos _ _ _ _ _ _ _ _ _ _ Hinv) as Hp. pose proof (inv_input _ _ _ _ _ _ _ _ _ _ Hinv) as Hin.
          apply (f_equal (@length _)) in Hin. rewrite app_length in Hin.
          destruct (nth_error w pos) as [x|] eqn:Ex.
          + assert (Hlt : pos < length w) by (eapply nth_error_Some_lt; eauto). rewrite (proj2 (Nat.ltb_lt _ _)) by auto. rewrite (C1 Hlt).
            left. exists (tix x). split; [apply in_or_app; simpl; auto|eauto].
          + apply nth_error_None in Ex. destruct C2 as (-> & -> & _); [lia|]. right. rewrite (proj2 (Nat.ltb_ge _ _)) by auto. split; [apply in_or_app; simpl; auto|auto]. }
      exists lo', hi'. split; auto. rewrite <- app_assoc in H1. exact H1.
  Qed.

  (** errors only ever grow *)
  Lemma errors_grow m : forall n st, m <= n -> exists l, errors tix P n st = errors tix P m st ++ l.
  Proof.
    induction m as [|m IH]; intros n st H; [exists (errors tix P n st); reflexivity|]. destruct n as [|n]; [lia|]. cbn [errors].
    destruct (step st) as [st'|]; [|exists []; rewrite !app_nil_r; reflexivity]. destruct (IH n st' ltac:(lia)) as [l ->]. exists l. rewrite app_assoc. auto.
  Qed.

  (** ** Before the first error *)
  Lemma step_syms st st' : step st = inl st' -> ps_syms st' = pulled tix st.
  Proof.
    unfold parse_step, pulled. cbv zeta. destruct (ps_buf (ps_read tix st)) as [|[t i] buf]; [discriminate|].
    destruct (act (pr_tab P) (ps_state (ps_read tix st)) t) as [[[q|k|]|]| |]; try discriminate.
    - destruct t; intros H; try discriminate; injection H as <-; reflexivity.
    - destruct (nth_error (p_rules (pr_tab P)) k) as [r|]; [|discriminate].
      destruct (length (ps_stack (ps_read tix st)) <? length (r_rhs r)); [discriminate|].
      destruct (reduce_args _ _ _) as [args| |]; try discriminate. destruct (nth_error (pr_gens P) k) as [g|]; [|discriminate].
      destruct (g args); try discriminate. destruct (aget eqb _ (p_goto (pr_tab P))) as [row|]; [|discriminate].
      destruct (aget eqb (r_lhs r) row); [|discriminate]. intros H; injection H as <-; reflexivity.
    - destruct (ps_stack (ps_read tix st)) as [|[q [v i'|k i'|lo hi|]] l]; discriminate.
    - destruct (recover _ _ _ _ _ _ _ _) as [[[[[[c st1] rc] bk] hd] eh]|]; [|discriminate].
      destruct (put_back _ _ _ _); try discriminate. destruct (act (pr_tab P) c TErr) as [[[q|k|]|]| |]; try discriminate.
      intros H; injection H as <-; reflexivity.
  Qed.
  Lemma pulled_len st g ts pos : invat st g ts pos -> length (ps_syms st) <= S pos -> length (pulled tix st) <= S pos.
  Proof.
    intros Hinv Hl. unfold pulled, ps_read. destruct (ps_buf st) as [|c buf] eqn:Eb; [|auto].
    assert (Hp : length (ps_syms st) <= pos).
    { destruct (inv_buf _ _ _ _ _ _ _ _ _ _ Hinv) as [H|(H & _)]; [|congruence]. rewrite Eb in H.
      destruct (Nat.le_gt_cases (length (ps_syms st)) pos); auto. exfalso.
      destruct (nth_error (ps_syms st) pos) as [x|] eqn:Ex; [|apply nth_error_None in Ex; lia]. rewrite (skipn_cons _ _ _ Ex) in H. discriminate. }
    destruct (ps_iter st); simpl; [lia|]. rewrite app_length. simpl. lia.
  Qed.

  Record quiet_at (st : pstate N T) (g : list sym) (ts : list tree) (pos : nat) : Prop := {
    q_inv : invat st g ts pos;
    q_leaves : flat_map leaves ts = seq 0 pos;
    q_clean : forallb clean ts = true;
    q_syms : length (ps_syms st) <= S pos;
    q_trk : trk tix rules start ss w g pos }.

  Lemma quiet_inv st : quiet tix P w st -> exists g ts pos, quiet_at st g ts pos.
  Proof.
    induction 1 as [|st st' H (g & ts & pos & [Hinv Hlv Hcl Hsy Htr]) He Hs].
    { exists [], [], 0. constructor; simpl; auto; [apply at_init|]. intros z _. constructor. }
    pose proof (step_syms _ _ Hs) as Hsyms. pose proof (pulled_len _ _ _ _ Hinv Hsy) as Hpl.
    destruct (cases tix s P ws ss w Hm _ _ _ _ Hinv) as (d & Hd & Hc). rewrite (err_spec _ _ _ _ _ Hinv Hd) in He. destruct d as [[q|k|]|]; cbn [step_case] in Hc; [| | |discriminate].
    - destruct Hc as (_ & Hlt & s' & Hs' & Hi). rewrite Hs in Hs'. injection Hs' as <-. exists (g ++ [TM (la_at tix w pos)]), (ts ++ [Leaf pos]), (S pos). constructor; auto.
      + rewrite flat_map_app, Hlv. simpl. rewrite <- seq_S. reflexivity.
      + rewrite forallb_app, Hcl. reflexivity.
      + rewrite Hsyms. lia.
      + intros z Hz. destruct (nth_error w pos) as [x|] eqn:Ex; [|apply nth_error_None in Ex; lia].
        assert (Hla : la_at tix w pos = TSym (tix x)) by (unfold la_at; rewrite Ex; auto).
        rewrite (words_snoc tix w _ _ Ex), <- app_assoc. simpl. eapply astar_trans; [apply Htr; simpl; auto|].
        rewrite Hla. apply astar_one. simpl in Hd. rewrite Hla in Hd. constructor. apply Hd.
    - destruct Hc as [(r & Hr & _ & Hx & Hw & Hin)|(r & dd & ts1 & ts2 & args & gen & Hr & Eg & _ & _ & Ets & _ & Htw & Ha & Hg & Hc)]; [congruence|].
      destruct (gen args) as [v|e|].
      + destruct Hc as (s' & Hs' & Hi). rewrite Hs in Hs'. injection Hs' as <-. exists (dd ++ [NT (r_lhs r)]), (ts1 ++ [Node k ts2]), pos. constructor; auto.
        * rewrite <- Hlv, Ets, !flat_map_app. simpl. rewrite app_nil_r. reflexivity.
        * rewrite Ets, forallb_app in Hcl. rewrite forallb_app. simpl. rewrite andb_true_r. exact Hcl.
        * rewrite Hsyms. lia.
        * simpl in Hd. destruct Hd as (_ & Hna & Hk & Hcm & _). intros z Hz. eapply astar_trans; [apply Htr; auto|]. apply astar_one. rewrite Eg in *.
          econstructor; eauto. rewrite Hz. auto.
      + destruct Hc as [it Hc]. congruence.
      + congruence.
    - destruct Hc as (_ & _ & _ & t & v & _ & _ & Hx). congruence.
  Qed.

  Lemma quiet_turns st : quiet tix P w st -> turns tix P w st.
  Proof. induction 1; [constructor|econstructor; eauto]. Qed.
  Lemma quiet_errors st : quiet tix P w st -> exists n, forall fuel, errors tix P (n + fuel) (ps_init P w) = errors tix P fuel st.
  Proof.
    induction 1 as [|st st' H [n IH] He Hs]; [exists 0; auto|]. exists (n + 1). intros fuel. rewrite <- Nat.add_assoc, IH. simpl. rewrite He, Hs. reflexivity.
  Qed.

  Lemma quiet_noterr st g ts pos : quiet_at st g ts pos -> ~ In (TM TErr) g.
  Proof.
    intros [Hinv _ Hcl _ _]. pose proof (inv_stk _ _ _ _ _ _ _ _ _ _ Hinv) as H. clear Hinv. revert Hcl. induction H as [|sk g ts q e X t H IH Hs He Hu]; intros Hcl Hin; [destruct Hin|].
    rewrite forallb_app in Hcl. apply andb_true_iff in Hcl as [H1 H2]. simpl in H2. rewrite andb_true_r in H2.
    apply in_app_or in Hin as [Hin|[Hin|[]]]; [apply IH; auto|]. subst X. destruct e; simpl in He.
    - destruct He as ([A HA] & _). discriminate.
    - destruct He as (HA & _). discriminate.
    - destruct He as (_ & -> & _). discriminate.
    - destruct He.
  Qed.
  Lemma quiet_twfs st g ts pos : quiet_at st g ts pos -> twfs tix rs w g ts.
  Proof. intros H. refine (inv_twfs _ _ _ _ _ _ _ _ _ _ _ _ (q_inv _ _ _ _ H)); [apply (md_len _ _ _ _ Hm)|]. right. eapply quiet_noterr; eauto. Qed.
  Lemma quiet_pos st g ts pos : quiet_at st g ts pos -> pos <= length w.
  Proof. intros [Hinv _ _ _ _]. pose proof (inv_pos _ _ _ _ _ _ _ _ _ _ Hinv). rewrite (inv_input _ _ _ _ _ _ _ _ _ _ Hinv), app_length. lia. Qed.
  Lemma quiet_shifted st g ts pos : quiet_at st g ts pos -> shifted st = firstn pos w.
  Proof.
    intros [Hinv _ _ _ _]. unfold shifted. pose proof (inv_pos _ _ _ _ _ _ _ _ _ _ Hinv) as Hp. pose proof (inv_input _ _ _ _ _ _ _ _ _ _ Hinv) as Hin.
    assert (G : length (ps_syms st) - length (filter (fun c => match fst c with TSym _ => true | _ => false end) (ps_buf st)) = pos).
    { destruct (inv_buf _ _ _ _ _ _ _ _ _ _ Hinv) as [H|(H & _ & H2)]; rewrite H; [|simpl; lia].
      assert (G : forall l i, length (filter (fun c => match fst c with TSym _ => true | _ => false end) (toks tix i l)) = length l) by (induction l; intros; simpl; auto).
      rewrite G, skipn_length. lia. }
    rewrite G, Hin, firstn_app. replace (pos - length (ps_syms st)) with 0 by lia. rewrite firstn_O, app_nil_r. reflexivity.
  Qed.
  Lemma quiet_pulled st g ts pos : quiet_at st g ts pos -> pulled tix st = firstn (S pos) w.
  Proof.
    intros Hq. pose proof Hq as [Hinv _ _ Hsy _]. pose proof (pulled_len _ _ _ _ Hinv Hsy) as Hl.
    destruct (read_inv tix rules start ss P w (md_len _ _ _ _ Hm) st g ts pos Hinv) as [H (t & i & buf & Eb & Hla)].
    pose proof (inv_input _ _ _ _ _ _ _ _ _ _ H) as Hin. unfold pulled in *. destruct Hla as [(x & Hx & _ & _ & Hlt & _)|(_ & _ & Hp & _ & Hit & Hlen)].
    - assert (E0 : length (ps_syms (ps_read tix st)) = S pos) by lia. rewrite Hin, firstn_app. rewrite <- E0, Nat.sub_diag, firstn_O, app_nil_r, firstn_all. reflexivity.
    - rewrite Hit, app_nil_r in Hin. rewrite <- Hin. rewrite firstn_all2 by lia. reflexivity.
  Qed.
End More.

Lemma tok_kinds {T} (tix : T -> nat) (w : list T) n : n <= length w -> map (tok tix w) (seq 0 n) = kinds tix (firstn n w).
Proof.
  induction n as [|n IH]; intros Hn; [reflexivity|]. rewrite seq_S, map_app, IH by lia. simpl.
  destruct (nth_error w n) as [x|] eqn:Ex; [|apply nth_error_None in Ex; lia].
  change (match w with [] => [] | a :: l => a :: firstn n l end) with (firstn (S n) w). unfold kinds. fold (words tix (firstn (S n) w)). rewrite (words_snoc tix w _ _ Ex). unfold tok. rewrite Ex. reflexivity.
Qed.

Section Final.
  Context {N T E : Type} (nix : N -> nat) (tix : T -> nat).
  Variables (s : syntax N T E) (P : parser N T E) (ws : list warning) (ss : nat) (w : list T).
  Hypothesis Hm : made s P ws ss.
  Notation rules := (gram s).
  Notation start := (sx_start s).
  Notation rs := (augment rules start ss).
  Notation sr := (length rules).

  Lemma cf_of : ws = [] -> conflict_free rs sr.
  Proof. apply (md_free _ _ _ _ Hm). Qed.
  Lemma early_cyc : early rules start ss -> cyclic rules start.
  Proof. apply early_cyclic; [apply (md_fresh _ _ _ _ Hm)|apply (md_eoi _ _ _ _ Hm)]. Qed.

  Lemma made_tree t : ws = [] -> proper_tree tix s w t ->
    exists x L, lends tix P (ps_init P w) x L /\
      ((result_of (ev (gens s) w t) x /\ L = fst (evl (gens s) w t)) \/ (cyclic rules start /\ exists v, x = Ok (ROk v, []))).
  Proof.
    intros Hw [[Ht Hl] Hc]. pose proof (proj2 (twf_aug tix rules start ss w (md_fresh _ _ _ _ Hm) t) Ht) as Ht'.
    destruct (parse_tree tix rules start ss P w (md_fresh _ _ _ _ Hm) (md_eoi _ _ _ _ Hm) (md_can _ _ _ _ Hm) (md_len _ _ _ _ Hm) (cf_of Hw) t Ht' Hc Hl)
      as (x & L & H1 & H2).
    rewrite (ev_made tix s P ws ss w Hm _ _ Ht), (evl_made tix s P ws ss w Hm _ _ Ht) in H2. exists x, L. split; auto.
    destruct H2 as [H2|[H2 H3]]; [auto|]. right. split; auto. apply early_cyc. auto.
  Qed.
  Lemma result_yields r x L : lends tix P (ps_init P w) x L -> result_of r x -> yields tix P w r.
  Proof.
    intros H Hr. apply lends_ends in H. destruct r as [[v|x0|l]|e|]; simpl in *; auto.
    - subst x. eapply ends_returns; eauto.
    - destruct Hr as [it ->]. eapply ends_returns; eauto.
    - subst x. apply ends_panics; auto.
  Qed.

  Lemma kinds_tok : kinds tix w = map (tok tix w) (seq 0 (length w)).
  Proof. rewrite tok_kinds by auto. rewrite firstn_all. reflexivity. Qed.
  Lemma derivable_tree : derivable tix s w <-> exists t, proper_tree tix s w t.
  Proof.
    unfold derivable, proper_tree, tree_of. split.
    - intros H. destruct (proj1 (der_tree tix rules w) _ _ H 0 (length w) kinds_tok (le_n _)) as (t & H1 & H2 & H3). exists t. auto.
    - intros (t & (H1 & H2) & H3). pose proof (proj1 (tree_der tix rules w) _ _ H1 H3) as H. rewrite H2, <- kinds_tok in H. exact H.
  Qed.

  (** reducers that do not fail on arguments of the right shape evaluate every tree *)
  Definition ty_arg (ty : nat -> N -> Prop) (X : sym) (a : arg N T) : Prop := forall A v, X = NT A -> a = NonTerminal v -> ty A v.
  Lemma total_ev ty : total_typed tix ty s w ->
    (forall X t, twf tix rules w X t -> StronglySorted Nat.lt (leaves t) -> exists a, ev (gens s) w t = GOk a /\ ty_arg ty X a) /\
    (forall l ts, twfs tix rules w l ts -> StronglySorted Nat.lt (flat_map leaves ts) -> exists a, gmap (ev (gens s) w) ts = GOk a /\ typed ty l a).
  Proof.
    intros Ht. apply (twf_twfs_ind T tix rules w).
    - intros i x Hx _. cbn [ev]. rewrite Hx. eexists. split; [reflexivity|]. intros A v H; discriminate.
    - intros lo hi _ _ _. cbn [ev]. eexists. split; [reflexivity|]. intros A v H; discriminate.
    - intros k r ts Hr Hts IH Hs. cbn [leaves] in Hs. destruct (IH Hs) as (args & Ha & Hty). cbn [ev]. rewrite Ha. cbn [gbind].
      pose proof (args_good tix rules w (gens s) _ _ _ Hts Hs Ha) as Hg. unfold gram in Hr. rewrite nth_error_map in Hr.
      destruct (nth_error (sx_rules s) k) as [c|] eqn:Ec; [|discriminate]. injection Hr as <-.
      destruct (Ht c args (nth_error_In _ _ Ec) Hg Hty) as (v & Hv & Hv'). unfold call, gens. rewrite nth_error_map, Ec. simpl. rewrite Hv. simpl. eexists. split; [reflexivity|].
      intros A v' H1 H2. injection H1 as <-. injection H2 as <-. auto.
    - intros _. simpl. eexists. split; [reflexivity|]. intros [|j] A v H; discriminate.
    - intros X l t ts Ht0 IH1 Hts IH2 Hs. simpl in Hs. apply SSorted_app_inv in Hs as [Hs1 Hs2]. destruct (IH1 Hs1) as (a & Ha & Ha'). destruct (IH2 Hs2) as (b & Hb & Hb').
      cbn [gmap]. rewrite Ha, Hb. simpl. eexists. split; [reflexivity|]. intros [|j] A v H1 H2; simpl in H1, H2; [|eapply Hb'; eauto].
      injection H1 as ->. injection H2 as ->. apply Ha'; auto.
  Qed.
  Lemma total_keeps ty : total_typed tix ty s w -> keeps tix ty s w.
  Proof. intros H r args v Hr Hg Ht Hv. destruct (H r args Hr Hg Ht) as (v' & Hv' & H'). congruence. Qed.
  Lemma seq_sorted n k : StronglySorted Nat.lt (seq k n).
  Proof. revert k. induction n as [|n IH]; intros k; simpl; constructor; auto. apply Forall_forall. intros x Hx. apply in_seq in Hx. unfold Nat.lt. lia. Qed.
  Lemma nt_value A t a : twf tix rules w (NT A) t -> ev (gens s) w t = GOk a -> exists v, a = NonTerminal v.
  Proof.
    intros H Ha. inversion H; subst. cbn [ev] in Ha. destruct (gmap (ev (gens s) w) ts) as [al| |]; try discriminate. cbn [gbind] in Ha.
    destruct (call (gens s) k al); try discriminate. injection Ha as <-. eauto.
  Qed.

  Lemma turns_full st : turns tix P w st -> exists n, forall fuel, parse_full tix P (n + fuel) w = loop (parse_step tix P) fuel st.
  Proof.
    induction 1 as [|st st' H [n IH] Hs]; [exists 0; auto|]. exists (n + 1). intros fuel. rewrite <- Nat.add_assoc, IH. simpl. rewrite Hs. reflexivity.
  Qed.
  Lemma turns_end st r : turns tix P w st -> parse_step tix P st = inr r -> exists fuel, parse_full tix P fuel w = r.
  Proof. intros H Hs. destruct (turns_full st H) as [n Hn]. exists (n + 1). rewrite Hn. simpl. rewrite Hs. reflexivity. Qed.

  (** ** Prefixes *)
  Lemma rewr_app_l G l l' z : rewr G l l' -> rewr G (l ++ z) (l' ++ z).
  Proof. intros H. exact (rewr_ctx G l l' H [] z). Qed.
  Lemma quiet_viable st g ts pos : quiet_at tix s P ss w st g ts pos ->
    exists l, rewr rules [NT start] (map TM (kinds tix (firstn pos w)) ++ l).
  Proof.
    intros Hq. pose proof (quiet_twfs tix s P ws ss w Hm _ _ _ _ Hq) as Htw. pose proof (quiet_pos tix s P ss w _ _ _ _ Hq) as Hpos. destruct Hq as [Hinv Hlv Hcl _ _].
    assert (Hv : exists i, valid rs sr g i).
    { apply (can_state _ _ _ (md_can _ _ _ _ Hm)). exists (ps_state st). apply (inv_state _ _ _ _ _ _ _ _ _ _ Hinv). }
    destruct Hv as [it Hv].
    pose proof (proj2 (tree_der tix rs w) _ _ Htw Hcl) as Hd. rewrite Hlv, (tok_kinds tix w pos Hpos) in Hd.
    destruct (valid_rewr rules start ss (md_fresh _ _ _ _ Hm) (md_eoi _ _ _ _ Hm) _ _ Hv) as (r & Hr & z & _ & _ & Hz & Hcase).
    destruct (Nat.eq_dec (i_rule it) sr) as [Ek|Ek].
    - pose proof (start_items rules start ss (md_fresh _ _ _ _ Hm) _ _ Hv Ek) as Eg. destruct (i_pos it) as [|q].
      + simpl in Eg. rewrite Eg in Hd. assert (E0 : kinds tix (firstn pos w) = []) by (inversion Hd; auto). rewrite E0. exists [NT start]. constructor.
      + assert (Eg' : g = [NT start]) by (rewrite Eg; simpl; destruct q; auto). rewrite Eg' in Hd. apply ders_one in Hd.
        exists []. rewrite app_nil_r. apply (proj1 (der_rewr rules)). apply (der_aug rules start ss (md_fresh _ _ _ _ Hm)). exact Hd.
    - destruct Hcase as [Hc|(r0 & A1 & A2 & A3)]; [congruence|].
      exists (skipn (i_pos it) (r_rhs r) ++ z). change [NT start] with ([] ++ NT start :: []). rewrite <- A2. apply rewr_step; auto. simpl. rewrite app_nil_r.
      eapply rewr_trans.
      + eapply rewr_aug; [apply (md_fresh _ _ _ _ Hm)|exact A3|]. eapply ss_rhs; [apply (md_fresh _ _ _ _ Hm)|auto].
      + apply rewr_app_l. apply (proj2 (der_rewr rules)). apply (proj2 (der_aug0 rules start ss (md_fresh _ _ _ _ Hm))); auto.
        intros Hin. assert (Hin' : In (NT ss) (g ++ skipn (i_pos it) (r_rhs r) ++ z)) by (apply in_or_app; auto).
        assert (G : forall l l', rewr rules l l' -> ~ In (NT ss) l -> ~ In (NT ss) l').
        { intros l l' H. induction H as [l|l1 r1 l2 l' Hr1 H IH]; auto. intros Hn. apply IH. rewrite in_app_iff in *. rewrite in_app_iff. simpl in Hn.
          pose proof (ss_rhs rules ss (md_fresh _ _ _ _ Hm) r1 Hr1). tauto. }
        eapply G; [eapply rewr_aug; [apply (md_fresh _ _ _ _ Hm)|exact A3|]|eapply ss_rhs; [apply (md_fresh _ _ _ _ Hm)|exact A1]|exact Hin'].
        eapply ss_rhs; [apply (md_fresh _ _ _ _ Hm)|auto].
  Qed.
  Lemma viable_derivable u l : productive rules -> (exists w0, der rules (NT start) w0) -> rewr rules [NT start] (map TM u ++ l) -> exists z, der rules (NT start) (u ++ z).
  Proof.
    intros Hp [w0 Hw0] Hr.
    assert (G : forall l l', rewr rules l l' -> (forall X, In X l -> exists v, der rules X v) -> (forall X, In X l' -> exists v, der rules X v)).
    { intros l1 l2 H. induction H as [l1|l1 r1 l2 l' Hr1 H IH]; auto. intros Hall. apply IH. intros X. rewrite !in_app_iff. intros [H1|[H1|H1]].
      - apply Hall. apply in_or_app. auto.
      - eapply Hp; eauto.
      - apply Hall. apply in_or_app. simpl. auto. }
    destruct (ders_all rules l) as [z Hz].
    { intros X HX. eapply G; [exact Hr| |apply in_or_app; right; exact HX]. intros Y [<-|[]]. eauto. }
    exists z. apply ders_one. eapply rewr_ders; [exact Hr|]. apply ders_app; auto. clear. induction u as [|t u IH]; simpl; [constructor|].
    change (t :: u) with ([t] ++ u). constructor; auto. constructor.
  Qed.
End Final.
