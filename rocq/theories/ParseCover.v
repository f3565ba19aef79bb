(** * Which tokens reach a reducer *)
From Coq Require Import List Arith Lia Bool Sorted.
From Verif Require Import Lib Grammar LrModel LrSpec LrSets LrStates LrNew LrTop LrMono ParseModel Trees ParseSpec ParseInv ParseTop ParseMore.
Import ListNotations.

Section Cover.
  Context {N T E : Type} (tix : T -> nat).
  Variables (s : syntax N T E) (P : parser N T E) (ws : list warning) (ss : nat) (w : list T).
  Hypothesis Hm : made s P ws ss.
  Notation invat := (inv_at tix (gram s) (sx_start s) ss P w).
  Notation step := (parse_step tix P).
  Let p := pr_tab P.

  (** the first position of a stack symbol, as far as it is recorded *)
  Definition key (e : entry N) : nat := match e with ENon _ i => i | ETok _ i => i | EErr lo _ => lo | EEoi => 0 end.
  Definition anchor (e : entry N) : bool := match e with ENon _ _ => true | ETok _ _ => true | _ => false end.

  (** ** Turns *)
  Lemma read_stack (st : pstate N T) : ps_stack (ps_read tix st) = ps_stack st.
  Proof. unfold ps_read. destruct (ps_buf st); auto. destruct (ps_iter st); auto. Qed.

  Lemma reduce_args_len syms es : forall base args, reduce_args (N := N) (T := T) syms base es = Ok args -> length args = length es.
  Proof.
    induction es as [|e es IH]; intros base args H; [injection H as <-; auto|]. destruct e as [v i|k i|lo hi|]; cbn [reduce_args] in H.
    - apply bind_Ok in H as (r & H & H0). injection H0 as <-. simpl. f_equal. eapply IH; eauto.
    - destruct (i <? base); [discriminate|]. apply bind_Ok in H as (x & _ & H). apply bind_Ok in H as (r & H & H0). injection H0 as <-. simpl. f_equal. eapply IH; eauto.
    - apply bind_Ok in H as (x & _ & H). apply bind_Ok in H as (r & H & H0). injection H0 as <-. simpl. f_equal. eapply IH; eauto.
    - discriminate.
  Qed.

  (** the pieces are what the reducer gets besides the values *)
  Lemma part_one i x : nth_error w i = Some x -> part w (i, i) = [x].
  Proof. intros H. unfold part. cbn [fst snd]. rewrite (skipn_cons _ _ _ H). replace (S i - i) with 1 by lia. reflexivity. Qed.
  Lemma args_shown syms rest (es : list (entry N)) : w = syms ++ rest -> forall base args, reduce_args syms base es = Ok args ->
    Forall (fun e => match e with EErr lo hi => lo <= hi | _ => True end) es ->
    map (part w) (flat_map piece es) = flat_map shown args.
  Proof.
    intros Hw. induction es as [|e es IH]; intros base args H HF; [injection H as <-; auto|]. pose proof (Forall_inv_tail HF) as HF'. destruct e as [v i|k i|lo hi|]; cbn [reduce_args] in H.
    - apply bind_Ok in H as (r & H & H0). injection H0 as <-. cbn [flat_map piece shown app]. eapply IH; eauto.
    - destruct (i <? base); [discriminate|]. apply bind_Ok in H as (x & Hx & H). apply bind_Ok in H as (r & H & H0). injection H0 as <-. apply of_opt_Ok in Hx.
      cbn [flat_map piece shown app map]. rewrite (IH _ _ H HF'). f_equal. apply part_one. rewrite Hw, nth_error_app1; auto. eapply nth_error_Some_lt; eauto.
    - apply bind_Ok in H as (x & Hx & H). apply bind_Ok in H as (r & H & H0). injection H0 as <-. cbn [flat_map piece shown app map]. rewrite (IH _ _ H HF'). f_equal.
      unfold slice in Hx. destruct (andb (lo <=? S hi) (hi <? length syms)) eqn:E0; [|discriminate]. injection Hx as <-. apply andb_true_iff in E0 as [_ E0]. apply Nat.ltb_lt in E0.
      unfold part. cbn [fst snd]. rewrite Hw, skipn_app, firstn_app. replace (S hi - lo - length (skipn lo syms)) with 0 by (rewrite skipn_length; lia). cbn [firstn]. apply app_nil_r.
    - discriminate.
  Qed.

  Inductive shape (st st' : pstate N T) : Prop :=
  | sh_shift k i buf : ps_buf (ps_read tix st) = (TSym k, i) :: buf -> ps_stack st' = (ps_state (ps_read tix st), ETok k i) :: ps_stack st -> ps_buf st' = buf -> step_uses tix P st = [] -> shape st st'
  | sh_eoi i buf : ps_buf (ps_read tix st) = (TEoi, i) :: buf -> (exists q, act p (ps_state (ps_read tix st)) TEoi = Ok (Some (Shift q))) -> shape st st'
  | sh_reduce t i buf k r q v : ps_buf (ps_read tix st) = (t, i) :: buf -> act p (ps_state (ps_read tix st)) t = Ok (Some (Reduce k)) -> nth_error (p_rules p) k = Some r -> length (r_rhs r) <= length (ps_stack st) ->
      ps_stack st' = (q, ENon v (first_index (map snd (rev (firstn (length (r_rhs r)) (ps_stack st)))) (length (ps_syms (ps_read tix st))))) :: skipn (length (r_rhs r)) (ps_stack st) ->
      ps_buf st' = ps_buf (ps_read tix st) -> step_uses tix P st = flat_map piece (map snd (rev (firstn (length (r_rhs r)) (ps_stack st)))) -> shape st st'
  | sh_recover t i buf cur stk' rc back head ehead pb : ps_buf (ps_read tix st) = (t, i) :: buf -> act p (ps_state (ps_read tix st)) t = Ok None ->
      recover p (match t with TEoi => true | _ => false end) (ps_rec (ps_read tix st)) false (ps_state (ps_read tix st)) i i (ps_stack st) = Some (cur, stk', rc, back, head, ehead) ->
      put_back tix (ps_syms (ps_read tix st)) head i = Ok pb ->
      ps_stack st' = (cur, EErr (Nat.min head ehead) i) :: stk' -> ps_buf st' = (if back then tl (pb ++ (t, i) :: buf) else pb ++ (t, i) :: buf) -> step_uses tix P st = [] -> shape st st'.

  Lemma step_shape st st' : step st = inl st' -> shape st st' /\ ps_syms st' = ps_syms (ps_read tix st).
  Proof.
    unfold parse_step. cbv zeta. fold p. destruct (ps_buf (ps_read tix st)) as [|[t i] buf] eqn:Eb; [discriminate|].
    destruct (act p (ps_state (ps_read tix st)) t) as [[[q|k|]|]| |] eqn:Ea; try discriminate.
    - destruct t as [k| |]; try discriminate.
      + intros H; injection H as <-. split; auto. eapply sh_shift; eauto; [cbn [ps_stack]; rewrite read_stack; reflexivity|].
        unfold step_uses, step_call. cbv zeta. rewrite Eb. fold p. rewrite Ea. reflexivity.
      + intros H; injection H as <-. split; auto. eapply sh_eoi; eauto.
    - destruct (nth_error (p_rules p) k) as [r|] eqn:Er; [|discriminate].
      destruct (length (ps_stack (ps_read tix st)) <? length (r_rhs r)) eqn:El; [discriminate|]. pose proof El as El'. apply Nat.ltb_ge in El'.
      destruct (reduce_args _ _ _) as [args| |] eqn:Eargs; try discriminate. destruct (nth_error (pr_gens P) k) as [g|]; [|discriminate].
      destruct (g args) as [v|e|]; try discriminate. destruct (aget eqb _ (p_goto p)) as [row|]; [|discriminate].
      destruct (aget eqb (r_lhs r) row); [|discriminate]. intros H; injection H as <-. split; auto. rewrite read_stack in *.
      eapply sh_reduce; eauto; [cbn [ps_stack]; reflexivity|].
      pose proof (reduce_args_len _ _ _ _ Eargs) as Hlen. rewrite map_length, rev_length, firstn_length_le in Hlen by auto.
      unfold step_uses, step_call. cbv zeta. rewrite Eb. fold p. rewrite Ea, Er, read_stack, El, Eargs, Hlen. reflexivity.
    - destruct (ps_stack (ps_read tix st)) as [|[q [v i'|k i'|lo hi|]] l]; discriminate.
    - destruct (recover _ _ _ _ _ _ _ _) as [[[[[[c st1] rc] bk] hd] eh]|] eqn:Erec; [|discriminate].
      destruct (put_back _ _ _ _) as [pb| |] eqn:Epb; try discriminate. destruct (act p c TErr) as [[[q|k|]|]| |]; try discriminate.
      intros H; injection H as <-. split; auto. rewrite read_stack in *. eapply sh_recover; eauto.
      unfold step_uses, step_call. cbv zeta. rewrite Eb. fold p. rewrite Ea. reflexivity.
  Qed.

  (** ** Popping during recovery *)
  Definition upd (he : nat * nat) (e : entry N) : nat * nat :=
    match e with ENon _ i => (i, snd he) | ETok _ i => (i, snd he) | EErr lo _ => (fst he, lo) | EEoi => he end.
  Lemma recover_pops eoi rc : forall st back cur head ehead cur' st' rc' back' head' ehead',
    recover p eoi rc back cur head ehead st = Some (cur', st', rc', back', head', ehead') ->
    exists popped, st = popped ++ st' /\ (head', ehead') = fold_left upd (map snd popped) (head, ehead) /\
      (back' = false -> popped = [] /\ back = false) /\ (back = false -> back' = true -> popped <> []).
  Proof.
    induction st as [|[q e] st IH]; intros back cur head ehead cur' st' rc' back' head' ehead' H; cbn [recover] in H;
      destruct (if negb eoi || negb back then _ else _) as [rc0|].
    - injection H as <- <- <- <- <- <-. exists []. repeat split; auto. intros ->; discriminate.
    - discriminate.
    - injection H as <- <- <- <- <- <-. exists []. repeat split; auto. intros ->; discriminate.
    - assert (G : exists popped, st = popped ++ st' /\ (head', ehead') = fold_left upd (map snd popped) (upd (head, ehead) e) /\ (back' = false -> False)).
      { destruct e as [v i|k i|lo hi|]; apply IH in H as (popped & -> & Hf & Hb & _); exists popped; (split; [reflexivity|]); (split; [exact Hf|]); intros Hx; destruct (Hb Hx); discriminate. }
      destruct G as (popped & -> & Hf & Hb). exists ((q, e) :: popped). split; [reflexivity|]. split; [exact Hf|]. split; [intros Hx; destruct (Hb Hx)|discriminate].
  Qed.

  (** keys in order, top first *)
  Definition desc (es : list (entry N)) : Prop := StronglySorted (fun a b => key b <= key a) es.
  Lemma fold_upd es rest : forall h e, desc (es ++ rest) -> Forall (fun x => key x <= h /\ key x <= e) (es ++ rest) -> Forall (fun x => x <> EEoi) es ->
    let he := fold_left upd es (h, e) in
    fst he <= h /\ snd he <= e /\
    (forall x, In x rest -> key x <= fst he /\ key x <= snd he) /\
    (forall x, In x es -> anchor x = true -> fst he <= key x) /\ (forall x, In x es -> anchor x = false -> snd he <= key x).
  Proof.
    induction es as [|x es IH]; intros h e Hd Hk Hne; cbn [fold_left app] in *.
    - split; [simpl; auto|]. split; [simpl; auto|]. split; [|simpl; tauto]. intros y Hy. rewrite Forall_forall in Hk. apply Hk. auto.
    - inversion Hd as [|? ? Hd' Hx]; subst. inversion Hk as [|? ? [Hx1 Hx2] Hk']; subst. inversion Hne as [|? ? Hxe Hne']; subst.
      assert (Hu : key x <= fst (upd (h, e) x) /\ key x <= snd (upd (h, e) x) /\ fst (upd (h, e) x) <= h /\ snd (upd (h, e) x) <= e /\ (if anchor x then fst (upd (h, e) x) = key x else snd (upd (h, e) x) = key x)).
      { destruct x; simpl in *; try lia. congruence. }
      destruct Hu as (U1 & U2 & U3 & U4 & U5). rewrite (surjective_pairing (upd (h, e) x)). 
      destruct (IH (fst (upd (h, e) x)) (snd (upd (h, e) x)) Hd') as (A & B & C & D & F); auto.
      { rewrite Forall_forall in *. intros y Hy. specialize (Hx y Hy). lia. }
      split; [lia|]. split; [lia|]. split; [exact C|]. split; intros y [<-|Hy] Ha; auto; rewrite Ha in U5; lia.
  Qed.

  (** ** The invariant *)
  Definition inside (i : nat) (lh : nat * nat) : Prop := fst lh <= i <= snd lh.
  Definition at_end (st : pstate N T) : Prop := ps_buf st = [(TEoi, 0)].
  Record cov (C : list (nat * nat)) (st : pstate N T) (pos : nat) : Prop := {
    cov_at : exists g ts, invat st g ts pos;
    cov_all : forall i, i < pos -> exists lh, In lh (C ++ flat_map piece (map snd (ps_stack st))) /\ inside i lh;
    cov_desc : ~ at_end st -> desc (map snd (ps_stack st)) /\ Forall (fun x => key x <= pos) (map snd (ps_stack st)) }.

  Lemma pos_buf st g ts pos : invat st g ts pos -> ~ at_end st -> length (ps_buf st) = length (ps_syms st) - pos.
  Proof.
    intros H Hn. destruct (inv_buf _ _ _ _ _ _ _ _ _ _ H) as [->|(Hx & _)]; [|contradiction].
    assert (G : forall l i, length (toks tix i l) = length l) by (induction l; simpl; auto). rewrite G, skipn_length. auto.
  Qed.
  Lemma pos_fun st g ts pos g' ts' pos' : invat st g ts pos -> invat st g' ts' pos' -> pos = pos'.
  Proof.
    intros H H'. pose proof (inv_pos _ _ _ _ _ _ _ _ _ _ H). pose proof (inv_pos _ _ _ _ _ _ _ _ _ _ H').
    destruct (list_eq_dec (fun a b : term * nat => ltac:(decide equality; [apply Nat.eq_dec|decide equality; apply Nat.eq_dec])) (ps_buf st) [(TEoi, 0)]) as [E0|E0].
    - assert (G : forall g ts pos, invat st g ts pos -> pos = length (ps_syms st)).
      { intros g0 ts0 pos0 Hi1. destruct (inv_buf _ _ _ _ _ _ _ _ _ _ Hi1) as [Hx|(_ & _ & Hx)]; auto. rewrite E0 in Hx. destruct (skipn pos0 (ps_syms st)); discriminate. }
      rewrite (G _ _ _ H), (G _ _ _ H'). auto.
    - pose proof (pos_buf _ _ _ _ H E0). pose proof (pos_buf _ _ _ _ H' E0). lia.
  Qed.

  Lemma stk_ents n st g ts : stk tix (gram s) (sx_start s) ss P w n st g ts -> Forall (fun e => e <> EEoi) (map snd st) /\ Forall (fun e => match e with EErr lo hi => lo <= hi | _ => True end) (map snd st).
  Proof.
    induction 1 as [|st g ts q e X t _ [IH1 IH2] _ He _]; [split; constructor|]. simpl. split; constructor; auto; destruct e; simpl in He; try congruence; tauto.
  Qed.
  Lemma ents_anchor n l es ts : ents tix (gram s) (sx_start s) ss P w n l es ts -> (exists X, In X l /\ X <> TM TErr) -> exists x, In x es /\ anchor x = true.
  Proof.
    induction 1 as [|X l e es t ts He Hes IH]; intros (Y & HY & Hne); [destruct HY|]. destruct HY as [->|HY].
    - exists e. split; [left; auto|]. destruct e; simpl in *; auto; destruct He as [-> _]; congruence.
    - destruct IH as (x & Hx & Ha); [eauto|]. exists x. split; [right; auto|auto].
  Qed.
  Lemma first_index_anchor (es : list (entry N)) d : (exists x, In x es /\ anchor x = true) -> exists x, In x es /\ key x = first_index es d.
  Proof.
    induction es as [|e es IH]; intros (x & Hx & Ha); [destruct Hx|]. destruct e as [v i|k i|lo hi|].
    - eexists. split; [left; reflexivity|reflexivity].
    - eexists. split; [left; reflexivity|reflexivity].
    - destruct Hx as [<-|Hx]; [discriminate|]. destruct IH as (y & Hy & E0); [eauto|]. exists y. split; [right; auto|auto].
    - destruct Hx as [<-|Hx]; [discriminate|]. destruct IH as (y & Hy & E0); [eauto|]. exists y. split; [right; auto|auto].
  Qed.

  Lemma SS_app {A} (R : A -> A -> Prop) l1 l2 : StronglySorted R (l1 ++ l2) -> StronglySorted R l2 /\ forall x y, In x l1 -> In y l2 -> R x y.
  Proof.
    induction l1 as [|a l1 IH]; simpl; intros H; [split; [auto|intros x y []]|]. inversion H as [|? ? H1 H2]; subst. destruct (IH H1) as [A1 A2]. split; auto.
    intros x y [<-|Hx] Hy; [|auto]. rewrite Forall_forall in H2. apply H2. apply in_or_app. auto.
  Qed.

  (** every rule has a token or a nonterminal *)
  Definition anchored : Prop := forall r, In r (gram s) -> exists X, In X (r_rhs r) /\ X <> TM TErr.
  Hypothesis Hanc : anchored.

  Lemma cov_step C st pos st' : cov C st pos -> step st = inl st' -> exists pos', cov (C ++ step_uses tix P st) st' pos'.
  Proof.
    intros [(g & ts & Hinv) Hall Hdesc] Hs. destruct (step_shape st st' Hs) as [Hsh Hsyms].
    assert (Hnext : exists g' ts' pos', invat st' g' ts' pos').
    { destruct (cases tix s P ws ss w Hm _ _ _ _ Hinv) as (d & _ & Hc). destruct d as [[q|k|]|]; cbn [step_case] in Hc.
      - destruct Hc as (_ & _ & s' & Hs' & Hi). rewrite Hs in Hs'. injection Hs' as <-. eauto.
      - destruct Hc as [(r & _ & _ & Hx & _)|(r & dd & ts1 & ts2 & args & gen & _ & _ & _ & _ & _ & _ & _ & _ & _ & Hc)]; [congruence|].
        destruct (gen args) as [v|e|]; [destruct Hc as (s' & Hs' & Hi)|destruct Hc as [it Hc]|]; try congruence. rewrite Hs in Hs'. injection Hs' as <-. eauto.
      - destruct Hc as (_ & _ & _ & t & v & _ & _ & Hx). congruence.
      - destruct Hc as (_ & [(it & Hx & _)|(s' & Hs' & _ & g' & ts' & ts2 & lo & hi & pos' & _ & _ & _ & _ & _ & Hi)]); [congruence|]. rewrite Hs in Hs'. injection Hs' as <-. eauto. }
    destruct Hnext as (g' & ts' & pos' & Hinv'). exists pos'.
    destruct (read_inv tix _ _ _ _ _ (md_len _ _ _ _ Hm) _ _ _ _ Hinv) as [Hread (t0 & i0 & buf0 & Eb0 & Hla)].
    assert (Hend : ~ at_end (ps_read tix st) -> ~ at_end st).
    { intros Hn He. apply Hn. unfold at_end, ps_read in *. rewrite He. auto. }
    pose proof (inv_pos _ _ _ _ _ _ _ _ _ _ Hread) as Hpos. pose proof (inv_pos _ _ _ _ _ _ _ _ _ _ Hinv') as Hpos'. rewrite Hsyms in Hpos'.
    assert (Hlen : ~ at_end st' -> length (ps_buf st') = length (ps_syms (ps_read tix st)) - pos') by (intros Hn; rewrite <- Hsyms; eapply pos_buf; eauto).
    assert (Hlen0 : ~ at_end (ps_read tix st) -> length (ps_buf (ps_read tix st)) = length (ps_syms (ps_read tix st)) - pos) by (intros Hn; eapply pos_buf; eauto).
    destruct (stk_ents _ _ _ _ (inv_stk _ _ _ _ _ _ _ _ _ _ Hinv)) as [Hne Hlh].
    destruct Hsh as [k i buf Eb Est Ebf Eu|i buf Eb [q Hq]|t i buf k r q v Eb Ea Er Hl Est Ebf Eu|t i buf cur stk' rc back head ehead pb Eb Ea Erec Epb Est Ebf Eu].
    - (* shift *)
      rewrite Eb in Eb0. injection Eb0 as <- <- <-. destruct Hla as [(x & Hx & _ & -> & Hlt & Ebuf)|(Hx & _)]; [|discriminate].
      assert (Hn : ~ at_end (ps_read tix st)) by (unfold at_end; rewrite Eb; discriminate).
      assert (Hn' : ~ at_end st').
      { unfold at_end. rewrite Ebf, Ebuf. destruct (skipn (S pos) (ps_syms (ps_read tix st))); discriminate. }
      assert (Ep : pos' = S pos) by (specialize (Hlen Hn'); specialize (Hlen0 Hn); rewrite Ebf in Hlen; rewrite Eb in Hlen0; simpl in Hlen0; lia). subst pos'.
      destruct (Hdesc (Hend Hn)) as [D1 D2]. constructor; [eauto| |].
      + intros j Hj. rewrite Est, Eu, app_nil_r. cbn [map snd flat_map piece]. destruct (Nat.eq_dec j pos) as [->|Hjp].
        * exists (pos, pos). split; [apply in_or_app; right; left; auto|]. unfold inside. simpl. lia.
        * destruct (Hall j ltac:(lia)) as (lh & Hin & Hi). exists lh. split; auto. apply in_app_or in Hin. apply in_or_app. destruct Hin; [auto|right; right; auto].
      + intros _. rewrite Est. cbn [map snd]. split.
        * constructor; auto.
        * constructor; [simpl; lia|]. eapply Forall_impl; [|exact D2]. simpl; intros; lia.
    - exfalso. rewrite Eb in Eb0. injection Eb0 as <- <- <-. pose proof (inv_state _ _ _ _ _ _ _ _ _ _ Hread) as Hstate.
      destruct (act_state (gram s) (sx_start s) ss P (md_can _ _ _ _ Hm) g _ TEoi Hstate) as (d & Hd & Hdec). unfold p in Hq. rewrite Hd in Hq. injection Hq as ->.
      destruct Hdec as [Hw _]. exact (wants_no_eoi _ _ _ (md_eoi _ _ _ _ Hm) _ Hw).
    - (* reduce *)
      rewrite Eb in Eb0. injection Eb0 as <- <- <-.
      assert (Ep : pos' = pos).
      { destruct Hla as [(x & Hx & Ht & -> & Hlt & Ebuf)|(Ht & -> & Hp & -> & Hit & Hl0)].
        - assert (Hn : ~ at_end (ps_read tix st)) by (unfold at_end; rewrite Eb, Ht; discriminate).
          assert (Hn' : ~ at_end st') by (unfold at_end; rewrite Ebf; exact Hn). specialize (Hlen Hn'). specialize (Hlen0 Hn). rewrite Ebf in Hlen. lia.
        - assert (Hn' : at_end st') by (unfold at_end; rewrite Ebf, Eb, Ht; reflexivity). destruct (inv_buf _ _ _ _ _ _ _ _ _ _ Hinv') as [Hx|(_ & _ & Hx)]; [|rewrite Hx, Hsyms, Hp; auto].
          unfold at_end in Hn'. rewrite Hn' in Hx. destruct (skipn pos' (ps_syms st')); discriminate. }
      subst pos'. constructor; [eauto| |].
      + intros j Hj. destruct (Hall j Hj) as (lh & Hin & Hi). exists lh. split; auto. rewrite Eu, Est. cbn [map snd flat_map piece]. rewrite <- (firstn_skipn (length (r_rhs r)) (ps_stack st)) in Hin at 1.
        rewrite map_app, flat_map_app in Hin. rewrite !in_app_iff in *. destruct Hin as [Hin|[Hin|Hin]]; [auto| |auto]. left. right.
        apply in_flat_map in Hin as (y & Hy & Hin). apply in_flat_map. exists y. split; auto. rewrite map_rev. apply -> in_rev. auto.
      + intros Hn'. assert (Hn : ~ at_end (ps_read tix st)) by (unfold at_end in *; rewrite <- Ebf; exact Hn'). destruct (Hdesc (Hend Hn)) as [D1 D2].
        rewrite <- (firstn_skipn (length (r_rhs r)) (ps_stack st)) in D1, D2. rewrite map_app in D1, D2. apply Forall_app in D2 as [D2a D2b]. destruct (SS_app _ _ _ D1) as [D1b D1c].
        assert (Hfi : exists x, In x (map snd (firstn (length (r_rhs r)) (ps_stack st))) /\ key x = first_index (map snd (rev (firstn (length (r_rhs r)) (ps_stack st)))) (length (ps_syms (ps_read tix st)))).
        { destruct (first_index_anchor (map snd (rev (firstn (length (r_rhs r)) (ps_stack st)))) (length (ps_syms (ps_read tix st)))) as (x & Hx & E0).
          - pose proof (inv_state _ _ _ _ _ _ _ _ _ _ Hread) as Hstate. destruct (act_state (gram s) (sx_start s) ss P (md_can _ _ _ _ Hm) g _ t Hstate) as (d & Hd & Hdec).
            unfold p in Ea. rewrite Hd in Ea. injection Ea as ->. destruct Hdec as (_ & _ & Hk & Hc & _).
            destruct (complete_split _ _ g k t (Hsr (gram s) (sx_start s) ss) Hc Hk) as (r' & dd & Hr' & Eg & _). unfold p in Er. rewrite (can_rules _ _ _ (md_can _ _ _ _ Hm)), Hr' in Er. injection Er as ->.
            pose proof (inv_stk _ _ _ _ _ _ _ _ _ _ Hinv) as Hstk. rewrite Eg in Hstk. destruct (stk_pop tix _ _ _ _ _ (md_len _ _ _ _ Hm) _ _ _ _ _ Hstk) as (_ & ts1 & ts2 & _ & _ & Hents & _).
            eapply ents_anchor; eauto. apply Hanc. eapply nth_error_In. apply (rule_old s ss k); eauto.
          - exists x. split; auto. rewrite map_rev in Hx. apply in_rev in Hx. auto. }
        destruct Hfi as (x & Hx & Ex). rewrite Est. cbn [map snd]. split.
        * constructor; auto. apply Forall_forall. intros y Hy. cbn [key]. rewrite <- Ex. apply D1c; auto.
        * constructor; auto. cbn [key]. rewrite <- Ex. rewrite Forall_forall in D2a. apply D2a. auto.
    - (* recovery *)
      rewrite Eb in Eb0. injection Eb0 as <- <- <-. destruct (recover_pops _ _ _ _ _ _ _ _ _ _ _ _ _ Erec) as (popped & Epop & Hf & Hb1 & Hb2).
      destruct Hla as [(x & Hx & Ht & -> & Hlt & Ebuf)|(Ht & -> & Hp & -> & Hit & Hl0)].
      + assert (Hn : ~ at_end (ps_read tix st)) by (unfold at_end; rewrite Eb, Ht; discriminate). destruct (Hdesc (Hend Hn)) as [D1 D2]. specialize (Hlen0 Hn). rewrite Eb in Hlen0. cbn [length] in Hlen0.
        rewrite Epop, map_app in D1, D2, Hne. apply Forall_app in Hne as [Hne1 Hne2].
        destruct (fold_upd (map snd popped) (map snd stk') pos pos D1) as (A & B & Cc & D & F); [eapply Forall_impl; [|exact D2]; simpl; intros; lia|auto|].
        rewrite <- Hf in A, B, Cc, D, F. cbn [fst snd] in A, B, Cc, D, F.
        rewrite put_back_ok in Epb by lia. injection Epb as <-.
        assert (Hbl : length (toks tix head (firstn (pos - head) (skipn head (ps_syms (ps_read tix st)))) ++ (t, pos) :: buf) = length (ps_syms (ps_read tix st)) - head).
        { assert (G : forall l i, length (toks tix i l) = length l) by (induction l; simpl; auto). rewrite app_length, G, firstn_length_le by (rewrite skipn_length; lia). cbn [length]. lia. }
        assert (Hn' : ~ at_end st').
        { assert (G : forall l i, Forall (fun c => fst c <> TEoi) (toks tix i l)) by (clear; induction l; simpl; constructor; auto; discriminate).
          assert (HF : Forall (fun c => fst c <> TEoi) (ps_buf st')).
          { rewrite Ebf, Ht, Ebuf. assert (HF : Forall (fun c => fst c <> TEoi) (toks tix head (firstn (pos - head) (skipn head (ps_syms (ps_read tix st)))) ++ (TSym (tix x), pos) :: toks tix (S pos) (skipn (S pos) (ps_syms (ps_read tix st))))).
            { apply Forall_app. split; [apply G|]. constructor; [discriminate|apply G]. }
            destruct back; auto. revert HF. match goal with |- Forall _ ?l -> _ => generalize l end. intros [|c0 rest] HF; [constructor|]. inversion HF; auto. }
          unfold at_end. intros He. rewrite He in HF. inversion HF as [|? ? Hc]. apply Hc. reflexivity. }
        specialize (Hlen Hn').
        assert (Ep : pos' = if back then S head else pos).
        { rewrite Ebf in Hlen. destruct back.
          - assert (Htl : forall (A : Type) (l : list A), length (tl l) = length l - 1) by (intros A0 [|]; simpl; lia). rewrite Htl, Hbl in Hlen. lia.
          - rewrite Hbl in Hlen. destruct (Hb1 eq_refl) as [-> _]. cbn [map fold_left] in Hf. injection Hf as -> _. lia. }
        constructor; [eauto| |].
        * intros j Hj. rewrite Eu, Est, app_nil_r. cbn [map snd flat_map piece].
          assert (Hsl : forall j, Nat.min head ehead <= j -> j <= pos -> exists lh, In lh (C ++ (Nat.min head ehead, pos) :: flat_map piece (map snd stk')) /\ inside j lh).
          { intros j0 H1 H2. exists (Nat.min head ehead, pos). split; [apply in_or_app; right; left; auto|]. unfold inside. simpl. lia. }
          assert (Hj1 : j < pos \/ (j = head /\ back = true)).
          { rewrite Ep in Hj. destruct back; [|auto]. destruct (Nat.eq_dec j head); [auto|left; lia]. }
          destruct Hj1 as [Hj1|[-> _]]; [|apply Hsl; lia].
          destruct (Hall j Hj1) as (lh & Hin & Hi). rewrite Epop, map_app, flat_map_app in Hin. rewrite !in_app_iff in Hin. destruct Hin as [Hin|[Hin|Hin]].
          -- exists lh. split; auto. apply in_or_app. auto.
          -- assert (Hback : back = true) by (destruct back; auto; destruct (Hb1 eq_refl) as [-> _]; destruct Hin).
             assert (Hjh : j <= head) by (rewrite Ep, Hback in Hj; lia).
             apply in_flat_map in Hin as (y & Hy & Hin). apply Hsl; [|lia]. destruct y as [v i|k i|lo hi|]; simpl in Hin; try contradiction; destruct Hin as [<-|[]]; unfold inside in Hi; simpl in Hi.
             ++ specialize (D _ Hy eq_refl). simpl in D. lia.
             ++ specialize (F _ Hy eq_refl). simpl in F. lia.
          -- exists lh. split; auto. apply in_or_app. right. right. auto.
        * intros _. rewrite Est. cbn [map snd]. destruct (SS_app _ _ _ D1) as [D1b _]. split.
          -- constructor; auto. apply Forall_forall. intros y Hy. cbn [key]. specialize (Cc y Hy). lia.
          -- apply Forall_cons; [cbn [key]; rewrite Ep; destruct back; lia|]. apply Forall_forall. intros y Hy. specialize (Cc y Hy). rewrite Ep. destruct back; lia.
      + (* end of input *)
        rewrite Ht in Erec.
        assert (Hback : back = false).
        { destruct back; auto. exfalso. pose proof (recover_ok tix (gram s) (sx_start s) ss P w (length (ps_syms (ps_read tix st))) true (ps_rec (ps_read tix st)) (ps_stack st) g ts false (ps_state (ps_read tix st)) 0 0 pos) as R.
          pose proof (inv_stk _ _ _ _ _ _ _ _ _ _ Hread) as Hstk. rewrite read_stack in Hstk. specialize (R Hstk (inv_state _ _ _ _ _ _ _ _ _ _ Hread) ltac:(lia) (inv_low _ _ _ _ _ _ _ _ _ _ Hread)).
          unfold p in Erec. rewrite Erec in R. destruct R as (? & ? & ? & ? & _ & _ & _ & _ & _ & _ & _ & R); [intros [?|?]; discriminate|]. specialize (R eq_refl). discriminate. }
        subst back. destruct (Hb1 eq_refl) as [-> _]. cbn [map fold_left app] in *. injection Hf as -> ->. unfold put_back in Epb. simpl in Epb. injection Epb as <-. cbn [app] in Ebf.
        assert (He' : at_end st') by (unfold at_end; rewrite Ebf, Ht; reflexivity).
        assert (Ep : pos' = pos).
        { destruct (inv_buf _ _ _ _ _ _ _ _ _ _ Hinv') as [Hx|(_ & _ & Hx)]; [unfold at_end in He'; rewrite He' in Hx; destruct (skipn pos' (ps_syms st')); discriminate|]. rewrite Hx, Hsyms, Hp. auto. }
        subst pos'. constructor; [eauto| |contradiction].
        intros j Hj. destruct (Hall j Hj) as (lh & Hin & Hi). exists lh. split; auto. rewrite Eu, Est, app_nil_r. cbn [map snd flat_map piece]. rewrite Epop in Hin. rewrite !in_app_iff in *. simpl. tauto.
  Qed.
  Lemma at_accept C st pos v it : cov C st pos -> step st = inr (Ok (ROk v, it)) -> forall i, i < length w -> exists lh, In lh C /\ inside i lh.
  Proof.
    intros [(g & ts & Hinv) Hall _] Hs i Hi. destruct (cases tix s P ws ss w Hm _ _ _ _ Hinv) as (d & _ & Hc). destruct d as [[q|k|]|]; cbn [step_case] in Hc.
    - destruct Hc as (_ & _ & s' & Hs' & _). congruence.
    - destruct Hc as [(r & _ & _ & Hx & _)|(r & dd & ts1 & ts2 & args & gen & _ & _ & _ & _ & _ & _ & _ & _ & _ & Hc)]; [congruence|].
      destruct (gen args) as [v0|e|]; [destruct Hc as (s' & Hs' & _)|destruct Hc as [it' Hc]|]; congruence.
    - destruct Hc as (_ & -> & -> & t & v' & -> & _ & Hx). pose proof (inv_stk _ _ _ _ _ _ _ _ _ _ Hinv) as Hstk.
      destruct (Hall i Hi) as (lh & Hin & Hi'). exists lh. split; auto. inversion Hstk as [|st' g' ts' s' e X t' Hst Hq He Hu Ha Hb Hc]. rewrite <- Ha in Hin.
      change [NT (sx_start s)] with ([] ++ [NT (sx_start s)]) in Hb. apply app_inj_tail in Hb as [-> ->]. assert (E0 : st' = []) by (clear - Hst; remember (@nil sym) as gg eqn:Eg; destruct Hst as [|? g0]; auto; destruct g0; discriminate). subst st'.
      destruct e; simpl in He, Hin; try (destruct He; discriminate); rewrite app_nil_r in Hin; auto.
    - destruct Hc as (_ & [(it' & Hx & _)|(s' & Hs' & _)]); congruence.
  Qed.
  Lemma cov_init : cov [] (ps_init P w) 0.
  Proof. constructor; [exists [], []; apply at_init|intros i Hi; lia|]. intros _. split; constructor. Qed.
  Lemma cov_run fuel : forall C st pos v it, cov C st pos -> loop step fuel st = Ok (ROk v, it) -> forall i, i < length w -> exists lh, In lh (C ++ uses tix P fuel st) /\ inside i lh.
  Proof.
    induction fuel as [|fuel IH]; intros C st pos v it Hc Hl i Hi; [discriminate|]. cbn [loop uses] in *. destruct (step st) as [st'|r] eqn:Es.
    - destruct (cov_step C st pos st' Hc Es) as [pos' Hc']. rewrite app_assoc. eapply IH; eauto.
    - subst r. destruct (at_accept _ _ _ _ _ Hc Es i Hi) as (lh & Hin & H). exists lh. split; auto. apply in_or_app. auto.
  Qed.
End Cover.

Section Uses.
  Context {N T E : Type} (tix : T -> nat).
  Variables (s : syntax N T E) (P : parser N T E) (ws : list warning) (ss : nat) (w : list T).
  Hypothesis Hm : made s P ws ss.

  Lemma step_uses_shown st k args : turns tix P w st -> step_call tix P st = Some (k, args) -> map (part w) (step_uses tix P st) = flat_map shown args.
  Proof.
    intros Ht Hc. destruct (turns_inv tix s P ws ss w Hm st Ht) as (g & ts & pos & Hinv). unfold step_uses. rewrite Hc.
    destruct (read_inv tix _ _ _ _ _ (md_len _ _ _ _ Hm) _ _ _ _ Hinv) as [Hread _].
    unfold step_call in Hc. cbv zeta in Hc. destruct (ps_buf (ps_read tix st)) as [|[t i] buf]; [discriminate|]. destruct (act (pr_tab P) (ps_state (ps_read tix st)) t) as [[[q|k'|]|]| |]; try discriminate.
    destruct (nth_error (p_rules (pr_tab P)) k') as [r|]; [|discriminate]. destruct (length (ps_stack (ps_read tix st)) <? length (r_rhs r)) eqn:El; [discriminate|]. apply Nat.ltb_ge in El.
    destruct (reduce_args _ _ _) as [args'| |] eqn:Ea; try discriminate. injection Hc as -> ->. pose proof (reduce_args_len _ _ _ _ Ea) as Hlen. rewrite map_length, rev_length, firstn_length_le in Hlen by auto.
    rewrite Hlen. rewrite read_stack in Ea. eapply args_shown; eauto; [apply (inv_input _ _ _ _ _ _ _ _ _ _ Hread)|].
    destruct (stk_ents tix s P ss w _ _ _ _ (inv_stk _ _ _ _ _ _ _ _ _ _ Hinv)) as [_ Hlh]. rewrite Forall_forall in *. intros e He. apply Hlh. apply in_map_iff in He as (y & <- & Hy). apply in_rev in Hy.
    apply in_map. rewrite <- (firstn_skipn (length (r_rhs r)) (ps_stack st)). apply in_or_app. auto.
  Qed.
  Lemma uses_called fuel : forall st, turns tix P w st -> forall lh, In lh (uses tix P fuel st) -> exists k args a, In (k, args) (calls tix P fuel st) /\ In a args /\ shown a = [part w lh].
  Proof.
    induction fuel as [|fuel IH]; intros st Ht lh Hin; [destruct Hin|]. cbn [uses calls] in *. apply in_app_or in Hin as [Hin|Hin].
    - destruct (step_call tix P st) as [[k args]|] eqn:Ec; [|unfold step_uses in Hin; rewrite Ec in Hin; destruct Hin].
      pose proof (step_uses_shown st k args Ht Ec) as Hs. assert (Hin' : In (part w lh) (flat_map shown args)) by (rewrite <- Hs; apply in_map; auto).
      apply in_flat_map in Hin' as (a & Ha & Hin'). exists k, args, a. split; [apply in_or_app; left; left; auto|]. split; auto. destruct a as [v|x|l]; simpl in *; [destruct Hin'| |]; destruct Hin' as [<-|[]]; reflexivity.
    - destruct (parse_step tix P st) as [st'|] eqn:Es; [|destruct Hin]. destruct (IH st' (turns_step _ _ _ _ _ Ht Es) lh Hin) as (k & args & a & H1 & H2). exists k, args, a. split; [apply in_or_app; auto|auto].
  Qed.
End Uses.
