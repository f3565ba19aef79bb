(** * The invariant of the parse loop *)
From Coq Require Import List Arith Lia Bool Sorted.
From Verif Require Import Lib Grammar LrModel LrSpec LrSets LrStates LrNew LrTop ParseModel Trees.
Import ListNotations.

(** ** Items and prefixes *)
Section Items.
  Variables (rs : list rule) (sr : nat).

  Lemma valid_split g it : valid rs sr g it -> (exists r, nth_error rs sr = Some r) ->
    exists r d, nth_error rs (i_rule it) = Some r /\ i_pos it <= length (r_rhs r) /\
      g = d ++ firstn (i_pos it) (r_rhs r) /\ valid rs sr d (mk_item (i_rule it) 0 (i_la it)).
  Proof.
    intros H [r0 Hr0]. induction H as [|g k p la r X H IH Hr Hp|g k p la r A k' r' t H IH Hr Hp Hr' HA Ht]; simpl in *.
    - exists r0, []. split; auto. split; [lia|]. split; auto. constructor.
    - destruct IH as (r1 & d & E1 & E2 & E3 & E4). rewrite Hr in E1. injection E1 as <-. exists r, d. split; auto.
      assert (p < length (r_rhs r)) by (eapply nth_error_Some_lt; eauto). split; [lia|]. split; [|auto].
      rewrite E3. rewrite <- app_assoc. f_equal. clear - Hp. revert p Hp. induction (r_rhs r) as [|Y l IH]; intros [|p] Hp; simpl in *; try discriminate.
      + injection Hp as ->. reflexivity.
      + f_equal. auto.
    - exists r', g. split; auto. split; [lia|]. split; [rewrite app_nil_r; auto|]. eapply valid_closure; eauto.
  Qed.

  Lemma valid_zero_wants g k la : valid rs sr g (mk_item k 0 la) -> k <> sr ->
    exists r, nth_error rs k = Some r /\ wants rs sr g (NT (r_lhs r)).
  Proof.
    intros H Hk. remember (mk_item k 0 la) as it eqn:E. destruct H; try discriminate.
    - injection E as <- <-. congruence.
    - injection E as -> ->. exists r'. split; auto. subst A. exists k0, p, la0, r. auto.
  Qed.

  Lemma complete_split g k t : (exists r, nth_error rs sr = Some r) -> complete rs sr g k t -> k <> sr ->
    exists r d, nth_error rs k = Some r /\ g = d ++ r_rhs r /\ wants rs sr d (NT (r_lhs r)) /\ valid rs sr d (mk_item k 0 t).
  Proof.
    intros Hsr (r & Hr & Hv) Hk. destruct (valid_split _ _ Hv Hsr) as (r' & d & E1 & _ & E3 & E4). simpl in *.
    rewrite Hr in E1. injection E1 as <-. rewrite firstn_all in E3. exists r, d. split; auto. split; auto. split; auto.
    destruct (valid_zero_wants _ _ _ E4 Hk) as (r' & E5 & E6). congruence.
  Qed.
End Items.

Lemma start_items rules start ss : ~ In ss (nonterminals rules) ->
  forall g it, valid (augment rules start ss) (length rules) g it -> i_rule it = length rules -> g = firstn (i_pos it) [NT start].
Proof.
  intros Hss. induction 1 as [|g k p la r X H IH Hr Hp|g k p la r A k' r' t H IH Hr Hp Hr' HA Ht]; simpl in *; intros E; auto.
  - subst k. rewrite augment_start in Hr. injection Hr as <-. rewrite (IH eq_refl). simpl in Hp.
    destruct p as [|p]; simpl in *; [congruence|destruct p; discriminate].
  - subst k'. rewrite augment_start in Hr'. injection Hr' as <-. simpl in HA. subst A.
    destruct (Nat.eq_dec k (length rules)) as [->|Hn].
    + rewrite augment_start in Hr. injection Hr as <-. rewrite (IH eq_refl). simpl in Hp.
      destruct p as [|p]; simpl in *; [auto|destruct p; discriminate].
    + exfalso. rewrite augment_old in Hr by auto. apply Hss, nonterminals_spec. exists r. split; [eapply nth_error_In; eauto|].
      right. eapply nth_error_In; eauto.
Qed.

(** ** Tokens in the buffer *)
Section Toks.
  Context {T : Type} (tix : T -> nat).
  Fixpoint toks (i : nat) (l : list T) : list (term * nat) :=
    match l with [] => [] | x :: l' => (TSym (tix x), i) :: toks (S i) l' end.
  Lemma toks_app i l1 l2 : toks i (l1 ++ l2) = toks i l1 ++ toks (i + length l1) l2.
  Proof. revert i. induction l1 as [|x l1 IH]; simpl; intros i; [f_equal; lia|]. rewrite IH. do 2 f_equal. f_equal. lia. Qed.

  Lemma put_back_ok syms head tail : tail <= length syms ->
    put_back tix syms head tail = Ok (toks head (firstn (tail - head) (skipn head syms))).
  Proof.
    intros Ht. unfold put_back. remember (tail - head) as n eqn:En. revert head En. induction n as [|n IH]; intros head En.
    - reflexivity.
    - cbn [seq mapM]. destruct (nth_error syms head) as [x|] eqn:E; [|apply nth_error_None in E; lia].
      cbn [of_opt bind]. rewrite IH by lia. cbn [bind].
      assert (Es : skipn head syms = x :: skipn (S head) syms).
      { clear - E. revert head E. induction syms as [|y l IH]; intros [|h] E; simpl in *; try discriminate; [congruence|]. apply IH in E. auto. }
      rewrite Es. reflexivity.
  Qed.
  Lemma skipn_cons (l : list T) i x : nth_error l i = Some x -> skipn i l = x :: skipn (S i) l.
  Proof. revert i. induction l as [|y l IH]; intros [|h] E; simpl in *; try discriminate; [congruence|]. apply IH in E. auto. Qed.
  Lemma put_back_all syms head tail : head <= tail -> tail <= length syms ->
    toks head (firstn (tail - head) (skipn head syms)) ++ toks tail (skipn tail syms) = toks head (skipn head syms).
  Proof.
    intros H1 H2. rewrite <- (firstn_skipn (tail - head) (skipn head syms)) at 2. rewrite toks_app. f_equal. f_equal.
    - rewrite firstn_length, skipn_length. lia.
    - assert (G : forall a b (l : list T), skipn (a + b) l = skipn a (skipn b l)).
      { clear. intros a b. induction b as [|b IH]; intros l; [rewrite Nat.add_0_r; auto|]. rewrite Nat.add_succ_r. destruct l; simpl; [destruct a; auto|apply IH]. }
      rewrite <- G. f_equal. lia.
  Qed.
End Toks.

(** ** The stack *)
Section Inv.
  Context {N T E : Type} (tix : T -> nat).
  Variables (rules : list rule) (start ss : nat).
  Let rs := augment rules start ss.
  Let sr := length rules.
  Variable P : parser N T E.
  Let p := pr_tab P.
  Variable input : list T.
  Hypothesis Hss : ~ In ss (nonterminals rules).
  Hypothesis Heoi : no_eoi rules.
  Hypothesis Hcan : canonical rs sr p.
  Hypothesis Hgens : length (pr_gens P) = length rs.

  Definition idx (e : entry N) : option nat :=
    match e with ENon v i => Some i | ETok _ i => Some i | _ => None end.
  Definition lows (ts : list tree) : list nat := flat_map (fun t => match t with Bad lo _ => [lo] | _ => [] end) ts.
  Notation lvs ts := (flat_map leaves ts).

  (** a stack entry stands for the symbol [X] and the tree [t]; [n] tokens have been read *)
  Definition ent (n : nat) (e : entry N) (X : sym) (t : tree) : Prop :=
    match e with
    | ENon v _ => (exists A, X = NT A) /\ twf tix rs input X t /\ ev (pr_gens P) input t = GOk (NonTerminal v)
    | ETok k i => X = TM (TSym k) /\ t = Leaf i /\ i < n /\ exists x, nth_error input i = Some x /\ tix x = k
    | EErr lo hi => X = TM TErr /\ t = Bad lo hi /\ lo <= hi /\ (hi < n \/ input = [])
    | EEoi => False
    end.
  Definition under (ts : list tree) (e : entry N) : Prop :=
    forall i, idx e = Some i -> Forall (fun j => j < i) (lvs ts) /\ Forall (fun j => j <= i) (lows ts).

  Inductive stk (n : nat) : list (nat * entry N) -> list sym -> list tree -> Prop :=
  | stk_nil : stk n [] [] []
  | stk_cons st g ts s e X t : stk n st g ts -> state_of p g = Some s -> ent n e X t -> under ts e ->
      stk n ((s, e) :: st) (g ++ [X]) (ts ++ [t]).

  Lemma ent_mono n n' e X t : n <= n' -> ent n e X t -> ent n' e X t.
  Proof.
    intros Hn. destruct e; simpl; auto.
    - intros (H1 & H2 & H3 & H4). repeat split; auto. lia.
    - intros (H1 & H2 & H3 & [H4|H4]); repeat split; auto. left. lia.
  Qed.
  Lemma stk_mono n n' st g ts : n <= n' -> stk n st g ts -> stk n' st g ts.
  Proof. intros Hn. induction 1; constructor; auto. eapply ent_mono; eauto. Qed.
  Lemma ent_twf n e X t : n <= length input -> (input <> [] \/ X <> TM TErr) -> ent n e X t -> twf tix rs input X t.
  Proof.
    intros Hn Hne. destruct e; simpl.
    - tauto.
    - intros (-> & -> & H & x & Hx & <-). constructor. auto.
    - intros (-> & -> & H1 & H2). destruct H2 as [H2|H2]; [constructor; lia|tauto].
    - tauto.
  Qed.
  Lemma stk_twfs n st g ts : n <= length input -> (input <> [] \/ ~ In (TM TErr) g) -> stk n st g ts -> twfs tix rs input g ts.
  Proof.
    intros Hn Hne. induction 1; [constructor|]. rewrite in_app_iff in Hne. simpl in Hne.
    apply twfs_app; [apply IHstk; tauto|]. constructor; [|constructor]. eapply ent_twf; eauto. destruct Hne as [Hne|Hne]; [auto|]. right. intros ->. tauto.
  Qed.
  Lemma stk_len n st g ts : stk n st g ts -> length st = length g /\ length st = length ts.
  Proof. induction 1; simpl; auto. rewrite !app_length. simpl. lia. Qed.

  (** popping the symbols of a right-hand side *)
  Inductive ents (n : nat) : list sym -> list (entry N) -> list tree -> Prop :=
  | ents_nil : ents n [] [] []
  | ents_cons X l e es t ts : ent n e X t -> ents n l es ts -> ents n (X :: l) (e :: es) (t :: ts).
  Lemma ents_app n l1 es1 ts1 l2 es2 ts2 : ents n l1 es1 ts1 -> ents n l2 es2 ts2 -> ents n (l1 ++ l2) (es1 ++ es2) (ts1 ++ ts2).
  Proof. intros H1 H2. induction H1; simpl; auto. constructor; auto. Qed.

  Lemma under_less ts ts' e : under (ts ++ ts') e -> under ts e.
  Proof.
    intros H i Hi. destruct (H i Hi) as [H1 H2]. unfold lows in H2. rewrite flat_map_app in H1, H2.
    apply Forall_app in H1. apply Forall_app in H2. split; [apply H1|apply H2].
  Qed.

  Lemma stk_pop n d l : forall st ts, stk n st (d ++ l) ts ->
    length l <= length st /\
    exists ts1 ts2, ts = ts1 ++ ts2 /\ stk n (skipn (length l) st) d ts1 /\
      ents n l (map snd (rev (firstn (length l) st))) ts2 /\
      Forall (under ts1) (map snd (rev (firstn (length l) st))) /\
      match rev (firstn (length l) st) with [] => l = [] | (q, _) :: _ => state_of p d = Some q end.
  Proof.
    induction l as [|X l IH] using rev_ind; intros st ts H.
    - rewrite app_nil_r in H. simpl. split; [lia|]. exists ts, []. rewrite app_nil_r. split; auto. split; auto. split; [constructor|]. auto.
    - rewrite app_assoc in H. inversion H as [Ha Hb Hc|st' g ts' s e X' t Hst Hs He Hu Ha Hb Hc].
      + exfalso. symmetry in Hb. apply app_eq_nil in Hb as [_ Hb]. discriminate.
      + subst st ts. apply app_inj_tail in Hb as [-> ->]. destruct (IH _ _ Hst) as (H1 & ts1 & ts2 & E1 & H2 & H3 & H4 & H5).
        rewrite app_length. cbn [length]. rewrite Nat.add_1_r. cbn [firstn skipn length].
        split; [lia|]. exists ts1, (ts2 ++ [t]). split; [rewrite E1, app_assoc; auto|]. split; [auto|].
        cbn [rev]. rewrite map_app. cbn [map]. split; [apply ents_app; auto; constructor; [auto|constructor]|].
        split.
        * apply Forall_app. split; auto. constructor; [|constructor]. simpl. rewrite E1 in Hu. eapply under_less; eauto.
        * destruct (rev (firstn (length l) st')) as [|[q e'] rest] eqn:Er; simpl.
          -- subst l. rewrite app_nil_r in Hs. auto.
          -- auto.
  Qed.

  (** ** The argument list of a reducer *)
  Lemma slice_ok syms rest lo hi : input = syms ++ rest -> lo <= hi -> hi < length syms ->
    slice syms lo hi = Ok (firstn (S hi - lo) (skipn lo input)).
  Proof.
    intros Hi H1 H2. unfold slice. rewrite (proj2 (Nat.leb_le lo (S hi))) by lia. rewrite (proj2 (Nat.ltb_lt _ _)) by auto. cbn [andb].
    rewrite Hi. rewrite skipn_app, firstn_app. assert (E0 : S hi - lo - length (skipn lo syms) = 0) by (rewrite skipn_length; lia).
    rewrite E0. cbn [firstn]. rewrite app_nil_r. reflexivity.
  Qed.

  Lemma reduce_args_ok syms rest : input = syms ++ rest -> forall l es ts, ents (length syms) l es ts ->
    StronglySorted Nat.lt (lvs ts) -> forall base, Forall (fun j => base <= j) (lvs ts) ->
    (exists args, reduce_args syms base es = Ok args /\ gmap (ev (pr_gens P) input) ts = GOk args /\ twfs tix rs input l ts) \/
    (reduce_args syms base es = Panic /\ input = [] /\ In (TM TErr) l).
  Proof.
    intros Hi. induction 1 as [|X l e es t ts He Hes IH]; intros Hs base Hb.
    - left. exists []. repeat split; auto. constructor.
    - simpl in Hs, Hb.
      assert (Hs' : StronglySorted Nat.lt (lvs ts)).
      { clear - Hs. induction (leaves t); auto. inversion Hs; auto. }
      apply Forall_app in Hb as [Hb1 Hb2].
      destruct e as [v i|k i|lo hi|]; simpl in He.
      + destruct (IH Hs' base Hb2) as [(args & E1 & E2 & E3)|(E1 & E2 & E3)].
        * left. exists (NonTerminal v :: args). simpl. rewrite E1. simpl. split; auto.
          destruct He as (_ & Htw & ->). simpl. rewrite E2. split; [reflexivity|]. constructor; auto.
        * right. simpl. rewrite E1. auto.
      + destruct He as (-> & -> & Hlt & x & Hx & Hk). simpl in Hs, Hb1. apply Forall_inv in Hb1 as Hbi.
        apply StronglySorted_inv in Hs as [_ Hall].
        assert (Hx' : nth_error syms i = Some x). { rewrite Hi, nth_error_app1 in Hx by auto. auto. }
        destruct (IH Hs' (S i)) as [(args & E1 & E2 & E3)|(E1 & E2 & E3)]. { eapply Forall_impl; [|exact Hall]. intros a Ha. exact Ha. }
        * left. exists (Terminal x :: args). cbn [reduce_args]. rewrite (proj2 (Nat.ltb_ge _ _)) by auto.
          rewrite Hx'. cbn [of_opt bind]. rewrite E1. split; [reflexivity|]. cbn [gmap ev]. rewrite Hx. cbn [gbind]. rewrite E2.
          split; [reflexivity|]. constructor; auto. rewrite <- Hk. constructor. auto.
        * right. cbn [reduce_args]. rewrite (proj2 (Nat.ltb_ge _ _)) by auto. rewrite Hx'. cbn [of_opt bind]. rewrite E1. simpl. auto.
      + destruct He as (-> & -> & H1 & [H2|H2]).
        * destruct (IH Hs' base Hb2) as [(args & E1 & E2 & E3)|(E1 & E2 & E3)].
          -- left. exists (ErrorSym (firstn (S hi - lo) (skipn lo input)) :: args). cbn [reduce_args]. rewrite (slice_ok syms rest) by auto.
             cbn [bind]. rewrite E1. split; [reflexivity|]. cbn [gmap ev gbind]. rewrite E2. split; [reflexivity|]. constructor; auto. constructor; auto. rewrite Hi, app_length. lia.
          -- right. cbn [reduce_args]. rewrite (slice_ok syms rest) by auto. cbn [bind]. rewrite E1. simpl. auto.
        * right. split; [|simpl; auto]. rewrite H2 in Hi. symmetry in Hi. apply app_eq_nil in Hi as [-> _]. cbn [reduce_args]. unfold slice.
          rewrite (proj2 (Nat.ltb_ge hi (length (@nil T)))) by (simpl; lia). rewrite andb_false_r. reflexivity.
      + destruct He.
  Qed.

  Lemma first_index_under ts es d : Forall (under ts) es -> Forall (fun j => j < d) (lvs ts) -> Forall (fun j => j <= d) (lows ts) ->
    Forall (fun j => j < first_index es d) (lvs ts) /\ Forall (fun j => j <= first_index es d) (lows ts).
  Proof.
    intros Hu H1 H2. induction Hu as [|e es He Hes IH]; simpl; auto. destruct e; auto; apply He; reflexivity.
  Qed.

  (** ** Recovery *)
  Lemma recover_ok n eoi rc : forall st g ts back cur head ehead bound, stk n st g ts -> state_of p g = Some cur ->
    ehead <= bound -> Forall (fun j => j <= bound) (lows ts) ->
    (back = true \/ eoi = false -> Forall (fun j => j < head) (lvs ts) /\ Forall (fun j => j <= head) (lows ts)) ->
    match recover p eoi rc back cur head ehead st with
    | None => True
    | Some (cur', st', rc', back', head', ehead') =>
        exists g' ts' ts2 ers, stk n st' g' ts' /\ ts = ts' ++ ts2 /\ state_of p g' = Some cur' /\
          aget eqb cur' (p_errors p) = Some ers /\ ehead' <= bound /\
          (back' = true \/ eoi = false -> Forall (fun j => j < head') (lvs ts') /\ Forall (fun j => j <= head') (lows ts')) /\
          (back' = false -> back = false /\ head' = head /\ ehead' = ehead /\ st' = st /\ cur' = cur) /\
          (back' = true -> eoi = false)
    end.
  Proof.
    intros st g ts back cur head ehead bound H. revert back cur head ehead.
    assert (Here : forall back cur head ehead ers st g ts (rc' : list nat), stk n st g ts -> state_of p g = Some cur -> ehead <= bound ->
      (back = true \/ eoi = false -> Forall (fun j => j < head) (lvs ts) /\ Forall (fun j => j <= head) (lows ts)) ->
      (negb eoi || negb back = true) -> aget eqb cur (p_errors p) = Some ers ->
      exists g' ts' ts2 ers, stk n st g' ts' /\ ts = ts' ++ ts2 /\ state_of p g' = Some cur /\
          aget eqb cur (p_errors p) = Some ers /\ ehead <= bound /\
          (back = true \/ eoi = false -> Forall (fun j => j < head) (lvs ts') /\ Forall (fun j => j <= head) (lows ts')) /\
          (back = false -> back = false /\ head = head /\ ehead = ehead /\ st = st /\ cur = cur) /\
          (back = true -> eoi = false)).
    { intros back cur head ehead ers st0 g0 ts0 _ A1 A2 A3 A4 A5 A6. exists g0, ts0, [], ers. rewrite app_nil_r.
      repeat (split; [auto; fail|]). intros ->. destruct eoi; [discriminate|auto]. }
    induction H as [|st g ts s e X t H IH Hs He Hu]; intros back cur head ehead Hcur Heh Hlow Hhead.
    - cbn [recover].
      destruct (negb eoi || negb back) eqn:Eb; [|auto].
      destruct (aget eqb cur (p_errors p)) as [ers|] eqn:Ee; [|auto].
      destruct rc as [|x rc]; [eapply Here; eauto; constructor|]. destruct (disjoint_nat (x :: rc) ers); [auto|eapply Here; eauto; constructor].
    - assert (Hnext : forall head' ehead', ehead' <= bound ->
          Forall (fun j => j < head') (lvs ts) /\ Forall (fun j => j <= head') (lows ts) \/ head' = head ->
          match recover p eoi rc true s head' ehead' st with
          | None => True
          | Some (cur', st', rc', back', hd', ehead'') =>
              exists g' ts' ts2 ers, stk n st' g' ts' /\ ts ++ [t] = ts' ++ ts2 /\ state_of p g' = Some cur' /\
                aget eqb cur' (p_errors p) = Some ers /\ ehead'' <= bound /\
                (back' = true \/ eoi = false -> Forall (fun j => j < hd') (lvs ts') /\ Forall (fun j => j <= hd') (lows ts')) /\
                (back' = false -> back = false /\ hd' = head /\ ehead'' = ehead /\ st' = (s, e) :: st /\ cur' = cur) /\
                (back' = true -> eoi = false)
          end \/ (eoi = true)).
      { intros head' ehead' B1 B2. destruct eoi eqn:Eeoi; [auto|]. left.
        unfold lows in Hlow. rewrite flat_map_app in Hlow. apply Forall_app in Hlow as [Hlow _].
        specialize (IH true s head' ehead' Hs B1 Hlow).
        assert (Hh : Forall (fun j => j < head') (lvs ts) /\ Forall (fun j => j <= head') (lows ts)).
        { destruct B2 as [B2|B2]; [auto|]. subst head'. destruct Hhead as [C1 C2]; [auto|]. unfold lows in C2.
          rewrite flat_map_app in C1, C2. apply Forall_app in C1. apply Forall_app in C2. split; [apply C1|apply C2]. }
        specialize (IH (fun _ => Hh)). destruct (recover p false rc true s head' ehead' st) as [[[[[[cur' st'] rc'] back'] hd'] eh'']|]; [|auto].
        destruct IH as (g' & ts' & ts2 & ers & D1 & D2 & D3 & D4 & D5 & D6 & D7 & D8). exists g', ts', (ts2 ++ [t]), ers.
        split; [auto|]. split; [rewrite D2, app_assoc; auto|]. split; [auto|]. split; [auto|]. split; [auto|]. split; [auto|]. split; [|auto].
        intros E0. destruct (D7 E0) as [D9 _]. discriminate. }
      assert (Heoi_none : eoi = true -> forall (st : list (nat * entry N)) s head' ehead', recover p eoi rc true s head' ehead' st = None).
      { intros ->. intros st0. induction st0 as [|[q [v i|k i|lo hi|]] st0 IH0]; intros; cbn [recover negb orb]; auto. }
      assert (Hn2 : forall head' ehead', ehead' <= bound ->
          Forall (fun j => j < head') (lvs ts) /\ Forall (fun j => j <= head') (lows ts) \/ head' = head ->
          match recover p eoi rc true s head' ehead' st with
          | None => True
          | Some (cur', st', rc', back', hd', ehead'') =>
              exists g' ts' ts2 ers, stk n st' g' ts' /\ ts ++ [t] = ts' ++ ts2 /\ state_of p g' = Some cur' /\
                aget eqb cur' (p_errors p) = Some ers /\ ehead'' <= bound /\
                (back' = true \/ eoi = false -> Forall (fun j => j < hd') (lvs ts') /\ Forall (fun j => j <= hd') (lows ts')) /\
                (back' = false -> back = false /\ hd' = head /\ ehead'' = ehead /\ st' = (s, e) :: st /\ cur' = cur) /\
                (back' = true -> eoi = false)
          end).
      { intros head' ehead' B1 B2. destruct (Hnext head' ehead' B1 B2) as [H0|H0]; [exact H0|]. rewrite (Heoi_none H0). auto. }
      assert (Hpop : match (match e with ENon _ i => recover p eoi rc true s i ehead st | ETok _ i => recover p eoi rc true s i ehead st
                        | EErr lo _ => recover p eoi rc true s head lo st | EEoi => recover p eoi rc true s head ehead st end) with
          | None => True
          | Some (cur', st', rc', back', hd', ehead'') =>
              exists g' ts' ts2 ers, stk n st' g' ts' /\ ts ++ [t] = ts' ++ ts2 /\ state_of p g' = Some cur' /\
                aget eqb cur' (p_errors p) = Some ers /\ ehead'' <= bound /\
                (back' = true \/ eoi = false -> Forall (fun j => j < hd') (lvs ts') /\ Forall (fun j => j <= hd') (lows ts')) /\
                (back' = false -> back = false /\ hd' = head /\ ehead'' = ehead /\ st' = (s, e) :: st /\ cur' = cur) /\
                (back' = true -> eoi = false)
          end).
      { destruct e as [v i|k i|lo hi|].
        - apply Hn2; [auto|]. left. apply Hu. reflexivity.
        - apply Hn2; [auto|]. left. apply Hu. reflexivity.
        - apply Hn2; [|auto]. simpl in He. destruct He as (_ & -> & _). unfold lows in Hlow. rewrite flat_map_app in Hlow. apply Forall_app in Hlow as [_ Hlow].
          simpl in Hlow. inversion Hlow; auto.
        - apply Hn2; auto. }
      assert (Hrec : recover p eoi rc back cur head ehead ((s, e) :: st) =
         match (if negb eoi || negb back then match aget eqb cur (p_errors p) with Some ers => match rc with [] => Some ers | _ => if disjoint_nat rc ers then None else Some (inter_nat rc ers) end | None => None end else None) with
         | Some rc' => Some (cur, (s, e) :: st, rc', back, head, ehead)
         | None => match e with ENon _ i => recover p eoi rc true s i ehead st | ETok _ i => recover p eoi rc true s i ehead st
                        | EErr lo _ => recover p eoi rc true s head lo st | EEoi => recover p eoi rc true s head ehead st end
         end) by (cbn [recover]; destruct e; reflexivity).
      rewrite Hrec. assert (Hst : stk n ((s, e) :: st) (g ++ [X]) (ts ++ [t])) by (constructor; auto).
      destruct (negb eoi || negb back) eqn:Eb; [|exact Hpop].
      destruct (aget eqb cur (p_errors p)) as [ers|] eqn:Ee; [|exact Hpop].
      destruct rc as [|x rc]; [eapply Here; eauto|]. destruct (disjoint_nat (x :: rc) ers); [exact Hpop|eapply Here; eauto].
  Qed.

  (** ** The invariant *)
  Definition noerr : Prop := forall r, In r rules -> ~ In (TM TErr) (r_rhs r).

  Definition buf_ok (s : pstate N T) (pos : nat) : Prop :=
    (ps_buf s = toks tix pos (skipn pos (ps_syms s)) \/ (ps_buf s = [(TEoi, 0)] /\ ps_iter s = [] /\ pos = length (ps_syms s))).

  Record inv_at (s : pstate N T) (g : list sym) (ts : list tree) (pos : nat) : Prop := {
    inv_input : input = ps_syms s ++ ps_iter s;
    inv_stk : stk (length (ps_syms s)) (ps_stack s) g ts;
    inv_state : state_of p g = Some (ps_state s);
    inv_pos : pos <= length (ps_syms s);
    inv_sorted : StronglySorted Nat.lt (lvs ts);
    inv_below : Forall (fun j => j < pos) (lvs ts);
    inv_low : Forall (fun j => j <= pos) (lows ts);
    inv_buf : buf_ok s pos;
    inv_noerr : noerr -> lvs ts = seq 0 pos /\ length (ps_syms s) <= S pos }.
  Definition inv (s : pstate N T) : Prop := exists g ts pos, inv_at s g ts pos.

  Lemma inv_init : inv (ps_init P input).
  Proof.
    exists [], [], 0. constructor; simpl; auto; try constructor; auto.
  Qed.

  (** the lookahead *)
  Lemma read_inv s g ts pos : inv_at s g ts pos -> inv_at (ps_read tix s) g ts pos /\
    exists t i buf, ps_buf (ps_read tix s) = (t, i) :: buf /\
      ((exists x, nth_error input pos = Some x /\ t = TSym (tix x) /\ i = pos /\ pos < length (ps_syms (ps_read tix s)) /\
           buf = toks tix (S pos) (skipn (S pos) (ps_syms (ps_read tix s)))) \/
       (t = TEoi /\ i = 0 /\ pos = length input /\ buf = [] /\ ps_iter (ps_read tix s) = [] /\ length (ps_syms (ps_read tix s)) = length input)).
  Proof.
    intros H. destruct H as [H1 H2 H3 H4 H5 H6 H7 H8 H9]. unfold ps_read. destruct (ps_buf s) as [|b0 buf] eqn:Eb.
    - assert (Hp : pos = length (ps_syms s)).
      { destruct H8 as [H8|[H8 _]]; [|congruence]. rewrite Eb in H8. destruct (Nat.eq_dec pos (length (ps_syms s))); auto.
        destruct (nth_error (ps_syms s) pos) as [x|] eqn:Ex; [|apply nth_error_None in Ex; lia].
        rewrite (skipn_cons _ _ _ Ex) in H8. discriminate. }
      destruct (ps_iter s) as [|x it] eqn:Ei.
      + split.
        * constructor; simpl; auto. right. auto.
        * exists TEoi, 0, []. simpl. split; auto. right. rewrite app_nil_r in H1. rewrite H1. auto 10.
      + assert (Hx : nth_error (ps_syms s ++ [x]) pos = Some x) by (subst pos; rewrite nth_error_app2 by lia; rewrite Nat.sub_diag; reflexivity).
        assert (Hsk : skipn pos (ps_syms s ++ [x]) = [x]).
        { rewrite (skipn_cons _ _ _ Hx). f_equal. apply skipn_all2. rewrite app_length. simpl. lia. }
        split.
        * constructor; cbn [ps_syms ps_iter ps_stack ps_state ps_buf]; auto.
          -- rewrite <- app_assoc. exact H1.
          -- eapply stk_mono; [|eauto]. rewrite app_length. lia.
          -- rewrite app_length. lia.
          -- left. cbn [ps_buf ps_syms]. rewrite Hsk. subst pos. reflexivity.
          -- intros Hn. destruct (H9 Hn) as [H9a _]. split; [auto|]. rewrite app_length. simpl. lia.
        * exists (TSym (tix x)), pos, []. split; [cbn [ps_buf]; subst pos; reflexivity|]. left. exists x.
          split; [rewrite H1; change (ps_syms s ++ x :: it) with (ps_syms s ++ ([x] ++ it)); rewrite app_assoc; rewrite nth_error_app1; [auto|eapply nth_error_Some_lt; eauto]|].
          split; [auto|]. split; [auto|]. cbn [ps_syms]. split; [rewrite app_length; simpl; lia|].
          rewrite skipn_all2; [reflexivity|]. rewrite app_length. simpl. lia.
    - split; [constructor; auto|]. destruct H8 as [H8|(H8 & Hit & Hp)].
      + destruct (nth_error (ps_syms s) pos) as [x|] eqn:Ex.
        * rewrite (skipn_cons _ _ _ Ex) in H8. cbn [toks] in H8. rewrite H8. exists (TSym (tix x)), pos, (toks tix (S pos) (skipn (S pos) (ps_syms s))).
          split; auto. left. exists x. assert (Hlt : pos < length (ps_syms s)) by (eapply nth_error_Some_lt; eauto). rewrite H1, nth_error_app1 by auto. auto 10.
        * apply nth_error_None in Ex. rewrite skipn_all2 in H8 by auto. rewrite Eb in H8. discriminate.
      + rewrite H8. exists TEoi, 0, []. split; auto. right. rewrite Hit, app_nil_r in H1. rewrite H1. auto 10.
  Qed.

  Lemma act_state g s t : state_of p g = Some s -> exists d, act p s t = Ok d /\ decides rs sr p g t d.
  Proof.
    intros Hs. destruct (can_action rs sr p Hcan g s Hs) as (row & E1 & H). exists (aget eqb t row). split; [|auto].
    unfold act. rewrite E1. reflexivity.
  Qed.
  Lemma wants_state g X : wants rs sr g X -> exists s, state_of p (g ++ [X]) = Some s.
  Proof. intros H. apply (can_state rs sr p Hcan). apply wants_valid. auto. Qed.

  Lemma Hsr : exists r, nth_error rs sr = Some r.
  Proof. eexists. apply augment_start. Qed.
  Lemma rs_rules k r : k <> sr -> nth_error rs k = Some r -> In r rules.
  Proof. intros H1 H2. unfold rs in H2. rewrite augment_old in H2 by auto. eapply nth_error_In; eauto. Qed.
  Lemma rs_In r : In r rs -> In r rules \/ r = mk_rule ss [NT start].
  Proof. unfold rs, augment. rewrite in_app_iff. simpl. intuition. Qed.
  Lemma wants_no_eoi g : ~ wants rs sr g (TM TEoi).
  Proof.
    intros H. apply wants_In in H as (r & H1 & H2). apply rs_In in H1 as [H1| ->].
    - eapply Heoi; eauto.
    - simpl in H2. destruct H2 as [H2|[]]; discriminate.
  Qed.
  Lemma noerr_wants g : noerr -> ~ wants rs sr g (TM TErr).
  Proof.
    intros Hn H. apply wants_In in H as (r & H1 & H2). apply rs_In in H1 as [H1| ->].
    - eapply Hn; eauto.
    - simpl in H2. destruct H2 as [H2|[]]; discriminate.
  Qed.
  Lemma wants_error_wants g k : wants_error rs sr g k -> wants rs sr g (TM TErr).
  Proof. intros (q & la & r & H1 & H2 & H3). exists k, q, la, r. auto. Qed.
  Lemma errors_wants g s ers : state_of p g = Some s -> aget eqb s (p_errors p) = Some ers -> wants rs sr g (TM TErr).
  Proof.
    intros Hs He. pose proof (can_errors rs sr p Hcan g s Hs) as H. rewrite He in H. destruct H as [H1 H2].
    destruct ers as [|k ers]; [congruence|]. eapply wants_error_wants. apply (H2 k). left; auto.
  Qed.
  Lemma accepting_g g : accepting rs sr g -> g = [NT start].
  Proof.
    intros (r & Hr & Hv). unfold rs, sr in *. rewrite augment_start in Hr. injection Hr as <-.
    apply start_items in Hv; auto.
  Qed.

  (** what a finished run has produced *)
  Definition good_end (r : res (outcome N E * list T)) : Prop :=
    match r with
    | Ok (ROk v, it) => exists t, twf tix rs input (NT start) t /\ ev (pr_gens P) input t = GOk (NonTerminal v) /\
        StronglySorted Nat.lt (leaves t) /\ it = [] /\ (noerr -> leaves t = seq 0 (length input))
    | Ok (RReducer e, it) => exists k r ts args g, k <> sr /\ nth_error rs k = Some r /\ twfs tix rs input (r_rhs r) ts /\
        StronglySorted Nat.lt (lvs ts) /\ gmap (ev (pr_gens P) input) ts = GOk args /\ nth_error (pr_gens P) k = Some g /\ g args = GErr e
    | Ok (RNotFound, it) => True
    | Panic => (exists k r ts args g, k <> sr /\ nth_error rs k = Some r /\ twfs tix rs input (r_rhs r) ts /\
        StronglySorted Nat.lt (lvs ts) /\ gmap (ev (pr_gens P) input) ts = GOk args /\ nth_error (pr_gens P) k = Some g /\ g args = GPanic) \/ (input = [] /\ ~ noerr)
    | OutOfFuel => False
    end.

  Lemma SSorted_app_inv (l1 l2 : list nat) : StronglySorted Nat.lt (l1 ++ l2) -> StronglySorted Nat.lt l1 /\ StronglySorted Nat.lt l2.
  Proof.
    induction l1 as [|x l1 IH]; simpl; intros H; [split; [constructor|auto]|]. inversion H; subst.
    destruct (IH H2) as [A B]. split; auto. constructor; auto. apply Forall_app in H3. apply H3.
  Qed.
  Lemma SSorted_snoc (l : list nat) x : StronglySorted Nat.lt l -> Forall (fun j => j < x) l -> StronglySorted Nat.lt (l ++ [x]).
  Proof.
    induction 1 as [|y l Hs IH Hy]; simpl; intros H; [repeat constructor|]. inversion H; subst. constructor; auto.
    apply Forall_app. split; auto.
  Qed.
  Lemma lvs_app ts ts' : lvs (ts ++ ts') = lvs ts ++ lvs ts'.
  Proof. apply flat_map_app. Qed.
  Lemma lows_app ts ts' : lows (ts ++ ts') = lows ts ++ lows ts'.
  Proof. apply flat_map_app. Qed.

  (** the next terminal at position [pos] of the input *)
  Definition la_at (pos : nat) : term := match nth_error input pos with Some x => TSym (tix x) | None => TEoi end.

  (** what one turn of the loop does, by the decision taken *)
  Definition step_case (s : pstate N T) (g : list sym) (ts : list tree) (pos : nat) (d : option (action nat)) : Prop :=
    match d with
    | Some (Shift q) => step_call tix P s = None /\ pos < length input /\
        exists s', parse_step tix P s = inl s' /\ inv_at s' (g ++ [TM (la_at pos)]) (ts ++ [Leaf pos]) (S pos)
    | Some (Reduce k) =>
        (exists r, nth_error rs k = Some r /\ step_call tix P s = None /\ parse_step tix P s = inr Panic /\ input = [] /\ In (TM TErr) (r_rhs r)) \/
        exists r dd ts1 ts2 args gen, nth_error rs k = Some r /\ g = dd ++ r_rhs r /\ wants rs sr dd (NT (r_lhs r)) /\
          step_call tix P s = Some (k, args) /\ ts = ts1 ++ ts2 /\ length ts1 = length dd /\ twfs tix rs input (r_rhs r) ts2 /\
          gmap (ev (pr_gens P) input) ts2 = GOk args /\ nth_error (pr_gens P) k = Some gen /\
          match gen args with
          | GOk v => exists s', parse_step tix P s = inl s' /\ inv_at s' (dd ++ [NT (r_lhs r)]) (ts1 ++ [Node k ts2]) pos
          | GErr e => exists it, parse_step tix P s = inr (Ok (RReducer e, it))
          | GPanic => parse_step tix P s = inr Panic
          end
    | Some Accept => step_call tix P s = None /\ pos = length input /\ g = [NT start] /\
        exists t v, ts = [t] /\ ev (pr_gens P) input t = GOk (NonTerminal v) /\ parse_step tix P s = inr (Ok (ROk v, []))
    | None => step_call tix P s = None /\
        ((exists it, parse_step tix P s = inr (Ok (RNotFound, it)) /\ (noerr -> it = skipn (S pos) input)) \/
        (exists s', parse_step tix P s = inl s' /\ ~ noerr /\
           exists g' ts' ts2 lo hi pos', ts = ts' ++ ts2 /\ wants rs sr g' (TM TErr) /\ lo <= hi /\
             (pos < length input -> hi = pos) /\
             (pos = length input -> lo = 0 /\ hi = 0 /\ g' = g /\ pos' = pos) /\
             inv_at s' (g' ++ [TM TErr]) (ts' ++ [Bad lo hi]) pos'))
    end.

  Lemma step_cases s g ts pos : inv_at s g ts pos -> exists d, decides rs sr p g (la_at pos) d /\ step_case s g ts pos d.
  Proof.
    intros H0. destruct (read_inv s g ts pos H0) as [H (t & i & buf & Eb & Hla)]. clear H0.
    assert (Et : t = la_at pos).
    { unfold la_at. destruct Hla as [(x & -> & -> & _)|(-> & _ & -> & _)]; auto. rewrite (proj2 (nth_error_None _ _)); auto. }
    unfold step_case, step_call, parse_step. cbv zeta. set (s1 := ps_read tix s) in *. clearbody s1. rewrite Eb. fold p.
    destruct (act_state g (ps_state s1) t (inv_state _ _ _ _ H)) as (d & Ed & Hd). exists d. rewrite Et in Hd. split; [exact Hd|]. rewrite <- Et in *. rewrite Ed.
    destruct H as [H1 H2 H3 H4 H5 H6 H7 H8 H9]. destruct d as [[q|k|]|]; simpl in Hd.
    - (* shift *)
      destruct Hd as [Hw Hq]. destruct Hla as [(x & Hx & -> & -> & Hlt & Ebuf)|(-> & _)]; [|exfalso; eapply wants_no_eoi; eauto].
      split; [reflexivity|]. split; [eapply nth_error_Some_lt; eauto|]. eexists. split; [reflexivity|].
      constructor; cbn [ps_syms ps_iter ps_stack ps_state ps_buf]; auto.
      + constructor; auto.
        * simpl. split; auto. split; auto. split; auto. exists x. auto.
        * intros j Hj. simpl in Hj. injection Hj as <-. auto.
      + rewrite lvs_app. simpl. apply SSorted_snoc; auto.
      + rewrite lvs_app. apply Forall_app. split; [eapply Forall_impl; [|exact H6]; simpl; intros; lia|]. simpl. constructor; [lia|constructor].
      + rewrite lows_app. simpl. rewrite app_nil_r. eapply Forall_impl; [|exact H7]. simpl; intros; lia.
      + left. simpl. auto.
      + intros Hn. destruct (H9 Hn) as [H9a H9b]. rewrite lvs_app, H9a. split; [|lia]. simpl. rewrite <- seq_S. reflexivity.
    - (* reduce *)
      destruct Hd as (_ & _ & Hk & Hc & _).
      destruct (complete_split rs sr g k t Hsr Hc Hk) as (r & d & Hr & Eg & Hw & _). subst g.
      rewrite (can_rules rs sr p Hcan). rewrite Hr.
      destruct (stk_pop _ _ _ _ _ H2) as (Hlen & ts1 & ts2 & Ets & Hst1 & Hents & Hund & Hq).
      rewrite (proj2 (Nat.ltb_ge _ _)) by auto.
      set (popped := rev (firstn (length (r_rhs r)) (ps_stack s1))) in *.
      subst ts. rewrite lvs_app in *. rewrite lows_app in *.
      destruct (SSorted_app_inv _ _ H5) as [Hso1 Hso2].
      apply Forall_app in H6 as [H6a H6b]. apply Forall_app in H7 as [H7a H7b].
      destruct (reduce_args_ok (ps_syms s1) (ps_iter s1) H1 _ _ _ Hents Hso2 0) as [(args & Eargs & Eev & Htw)|(Eargs & Ein & Herr)]; [apply Forall_forall; intros; lia| |].
      2:{ left. exists r. rewrite Eargs. auto. }
      right. rewrite Eargs.
      assert (Hkl : k < length (pr_gens P)) by (rewrite Hgens; eapply nth_error_Some_lt; eauto).
      destruct (nth_error (pr_gens P) k) as [gen|] eqn:Eg; [|apply nth_error_None in Eg; lia].
      assert (Hcur : state_of p d = Some (match popped with [] => ps_state s1 | (q, _) :: _ => q end)).
      { destruct popped as [|[q e] rest]; auto. rewrite Hq, app_nil_r in H3. auto. }
      exists r, d, ts1, ts2, args, gen. split; [auto|]. split; [auto|]. split; [auto|]. split; [auto|]. split; [auto|].
      split; [apply stk_len in Hst1; lia|]. split; [auto|]. split; [auto|]. split; [auto|].
      destruct (gen args) as [v|e|] eqn:Ev; [|eauto|reflexivity].
      destruct (wants_state d (NT (r_lhs r)) Hw) as [q Hq']. pose proof Hq' as Hq2. rewrite state_of_snoc, Hcur in Hq'.
      unfold next_state in Hq'. destruct (aget eqb _ (p_goto p)) as [row|]; [|discriminate]. rewrite Hq'.
      eexists. split; [reflexivity|].
      destruct (first_index_under ts1 (map snd popped) (length (ps_syms s1)) Hund) as [F1 F2];
          [eapply Forall_impl; [|exact H6a]; simpl; intros; lia|eapply Forall_impl; [|exact H7a]; simpl; intros; lia|].
      constructor; cbn [ps_syms ps_iter ps_stack ps_state ps_buf]; auto.
      + constructor; auto.
        * simpl. split; [eauto|]. split; [constructor; auto|]. cbn [ev]. rewrite Eev. cbn [gbind]. unfold call. rewrite Eg, Ev. reflexivity.
        * intros j Hj. simpl in Hj. injection Hj as <-. auto.
      + rewrite lvs_app. simpl. rewrite app_nil_r. auto.
      + rewrite lvs_app. apply Forall_app. split; auto. simpl. rewrite app_nil_r. auto.
      + rewrite lows_app. apply Forall_app. split; auto. simpl. constructor.
      + unfold buf_ok in *. cbn [ps_buf ps_iter ps_syms]. rewrite <- Eb. exact H8.
      + intros Hn. destruct (H9 Hn) as [H9a H9b]. rewrite <- H9a. rewrite lvs_app. simpl. rewrite app_nil_r. auto.
    - (* accept *)
      destruct Hd as (_ & Et' & Hacc). apply accepting_g in Hacc. subst g.
      destruct Hla as [(x & _ & Hx & _)|(_ & -> & Hp & -> & Hit & Hl)]; [congruence|].
      inversion H2 as [|st' g' ts' s' e X t' Hst Hs He Hu Ha Hb Hc].
      change [NT start] with ([] ++ [NT start]) in Hb. apply app_inj_tail in Hb as [-> ->].
      assert (ts' = []).
      { apply stk_len in Hst. destruct ts'; auto. simpl in Hst. destruct st'; simpl in *; lia. }
      subst ts' ts. split; [auto|]. split; [auto|]. split; [auto|]. destruct e as [v i|k i|lo hi|]; simpl in He.
      + destruct He as (_ & He1 & He2). exists t', v. rewrite Hit. auto.
      + destruct He as [He _]. discriminate.
      + destruct He as [He _]. discriminate.
      + destruct He.
    - (* recovery *)
      split; [reflexivity|]. destruct Hd as (Hnw & _ & _).
      set (eoi := match t with TEoi => true | _ => false end).
      assert (Hlows : Forall (fun j => j <= (if eoi then length (ps_syms s1) else i)) (lows ts)).
      { destruct Hla as [(x & Hx & Et' & -> & Hlt & Ebuf)|(Et' & -> & Hp & -> & Hit & Hl)]; subst eoi; rewrite Et'; simpl; auto. rewrite Hl, <- Hp. auto. }
      pose proof (recover_ok (length (ps_syms s1)) eoi (ps_rec s1) (ps_stack s1) g ts false (ps_state s1) i i (if eoi then length (ps_syms s1) else i) H2 H3) as R.
      specialize (R ltac:(destruct Hla as [(x & Hx & Et' & -> & Hlt & Ebuf)|(Et' & -> & Hp & -> & Hit & Hl)]; subst eoi; rewrite Et'; simpl; lia) Hlows).
      assert (R0 : false = true \/ eoi = false -> Forall (fun j => j < i) (lvs ts) /\ Forall (fun j => j <= i) (lows ts)).
      { intros [R0|R0]; [discriminate|]. destruct Hla as [(x & Hx & Et' & -> & Hlt & Ebuf)|(Et' & _)]; [auto|]. subst eoi. rewrite Et' in R0. discriminate. }
      specialize (R R0). clear R0.
      destruct (recover p eoi (ps_rec s1) false (ps_state s1) i i (ps_stack s1)) as [[[[[[cur st'] rc'] back] head] ehead]|].
      2:{ left. eexists. split; [reflexivity|]. intros Hn. destruct (H9 Hn) as [_ Hs]. rewrite H1, skipn_app.
          destruct Hla as [(x & Hx & Et' & -> & Hlt & Ebuf)|(Et' & -> & Hp & -> & Hit & Hl)].
          - assert (E0 : length (ps_syms s1) = S pos) by lia. rewrite skipn_all2 by lia. rewrite E0, Nat.sub_diag. reflexivity.
          - rewrite Hit, skipn_nil, app_nil_r. rewrite skipn_all2 by lia. reflexivity. }
      right. destruct R as (g' & ts' & ts2 & ers & R1 & R2 & R3 & R4 & R5 & R6 & R7 & R8).
      pose proof (errors_wants g' cur ers R3 R4) as Hwe.
      assert (Hi0 : i <= length (ps_syms s1)).
      { destruct Hla as [(x & Hx & Et' & -> & Hlt & Ebuf)|(Et' & -> & Hp & -> & Hit & Hl)]; lia. }
      rewrite put_back_ok by lia.
      destruct (act_state g' cur TErr R3) as (d & Ed' & Hd). rewrite Ed'.
      destruct d as [[q|k|]|]; simpl in Hd; try tauto. destruct Hd as [_ Hq].
      eexists. split; [reflexivity|]. split; [intros Hn; eapply noerr_wants; eauto|].
      subst ts. rewrite lvs_app in *. rewrite lows_app in *.
      destruct (SSorted_app_inv _ _ H5) as [Hso1 Hso2].
      apply Forall_app in H6 as [H6a H6b]. apply Forall_app in H7 as [H7a H7b].
      destruct Hla as [(x & Hx & Et' & -> & Hlt & Ebuf)|(Et' & -> & Hp & -> & Hit & Hl)].
      + (* at a token *)
        assert (Eeoi : eoi = false) by (unfold eoi; rewrite Et'; reflexivity). rewrite Eeoi in *. clear eoi Eeoi. destruct R6 as [R6a R6b]; [auto|].
        assert (Hpi : pos < length input) by (eapply nth_error_Some_lt; eauto).
        assert (Hbuf : ps_buf s1 = toks tix pos (skipn pos (ps_syms s1))).
        { destruct H8 as [H8|[H8 _]]; auto. rewrite Eb in H8. congruence. }
        set (pos' := if back then S (Nat.min head pos) else pos).
        assert (Hpos' : pos' <= length (ps_syms s1)) by (unfold pos'; destruct back; lia).
        exists g', ts', ts2, (Nat.min head ehead), pos, pos'. split; [auto|]. split; [auto|]. split; [lia|]. split; [auto|]. split; [lia|].
        constructor; cbn [ps_syms ps_iter ps_stack ps_state ps_buf]; auto.
        * constructor; auto.
          -- simpl. repeat split; auto; lia.
          -- intros j Hj. discriminate.
        * rewrite lvs_app. simpl. rewrite app_nil_r. auto.
        * rewrite lvs_app. simpl. rewrite app_nil_r. unfold pos'. destruct back.
          -- rewrite Forall_forall in *. intros j Hj. specialize (R6a j Hj). specialize (H6a j Hj). lia.
          -- auto.
        * rewrite lows_app. apply Forall_app. split.
          -- unfold pos'. destruct back; auto. rewrite Forall_forall in *. intros j Hj. specialize (R6b j Hj). specialize (H7a j Hj). lia.
          -- simpl. constructor; [|constructor]. unfold pos'. destruct back; lia.
        * left. cbn [ps_buf ps_syms]. rewrite <- Eb, Hbuf.
          destruct back.
          -- unfold pos'. destruct (Nat.le_gt_cases head pos) as [Hhp|Hhp].
             ++ rewrite Nat.min_l by auto. rewrite put_back_all by lia.
                destruct (nth_error (ps_syms s1) head) as [y|] eqn:Ey; [|apply nth_error_None in Ey; lia].
                rewrite (skipn_cons _ _ _ Ey). reflexivity.
             ++ rewrite Nat.min_r by lia. assert (E0 : pos - head = 0) by lia. rewrite E0. cbn [firstn toks app].
                rewrite <- Hbuf, Eb. cbn [tl]. exact Ebuf.
          -- destruct (R7 eq_refl) as (_ & -> & _). unfold pos'. rewrite Nat.sub_diag. reflexivity.
        * intros Hn. exfalso. eapply noerr_wants; eauto.
      + (* at the end of the input: only in place *)
        assert (Eeoi : eoi = true) by (unfold eoi; rewrite Et'; reflexivity). rewrite Eeoi in *. clear eoi Eeoi.
        destruct back; [discriminate (R8 eq_refl)|].
        destruct (R7 eq_refl) as (_ & -> & -> & -> & ->).
        assert (Eg' : g' = g /\ ts2 = []).
        { pose proof (stk_len _ _ _ _ R1) as L1. pose proof (stk_len _ _ _ _ H2) as L2. rewrite app_length in L2.
          assert (ts2 = []) by (destruct ts2; auto; simpl in L2; lia). split; auto. subst ts2. rewrite app_nil_r in H2.
          clear - R1 H2. revert g' ts' R1 g H2. induction (ps_stack s1) as [|[q e] st IH]; intros g' ts' A g B; inversion A; inversion B; subst; auto.
          match goal with E : _ ++ [_] = _ ++ [_] |- _ => apply app_inj_tail in E as [-> ->] end.
          match goal with A : stk _ st ?g1 ?ts1, B : stk _ st ?g2 ?ts1 |- _ => rewrite (IH _ _ A _ B) end. f_equal. f_equal.
          match goal with A : ent _ e ?X1 ?t, B : ent _ e ?X2 ?t |- ?X1 = ?X2 => destruct e; simpl in A, B end.
          - match goal with A : _ /\ twf _ _ _ ?X1 ?t /\ _, B : _ /\ twf _ _ _ ?X2 ?t /\ _ |- _ => destruct A as ((A1 & ->) & A & _); destruct B as ((B1 & ->) & B & _); inversion A; inversion B; subst; congruence end.
          - intuition congruence.
          - intuition congruence.
          - tauto. }
        destruct Eg' as [-> ->].
        exists g, ts', [], 0, 0, pos. split; [auto|]. split; [auto|]. split; [lia|]. split; [intros; lia|]. split; [auto|].
        constructor; cbn [ps_syms ps_iter ps_stack ps_state ps_buf]; auto.
        * constructor; auto.
          -- simpl. repeat split; auto. rewrite Hl. destruct input; [auto|left; simpl; lia].
          -- intros j Hj. discriminate.
        * rewrite lvs_app. simpl. rewrite app_nil_r. auto.
        * rewrite lvs_app. simpl. rewrite app_nil_r. auto.
        * rewrite lows_app. apply Forall_app. split; auto. simpl. constructor; [lia|constructor].
        * right. cbn [ps_buf ps_iter ps_syms]. split; [|split; auto; lia]. rewrite Et'. reflexivity.
        * intros Hn. exfalso. eapply noerr_wants; eauto.
  Qed.

  Lemma inv_twfs s g ts pos : input <> [] \/ ~ In (TM TErr) g -> inv_at s g ts pos -> twfs tix rs input g ts.
  Proof. intros Hne H. eapply stk_twfs; [|exact Hne|apply H]. rewrite (inv_input _ _ _ _ H) at 1. rewrite app_length. lia. Qed.

  Lemma step_inv s g ts pos : inv_at s g ts pos ->
    match parse_step tix P s with inl s' => inv s' | inr r => good_end r end.
  Proof.
    intros H. destruct (step_cases s g ts pos H) as (d & Hd & Hc). unfold step_case in Hc. destruct d as [[q|k|]|].
    - destruct Hc as (_ & _ & s' & -> & Hi). do 3 eexists. exact Hi.
    - assert (Hk : k <> sr) by (simpl in Hd; tauto).
      destruct Hc as [(r & Hr & _ & -> & Hi & Hin)|(r & dd & ts1 & ts2 & args & gen & C1 & -> & C3 & _ & -> & C5 & C6 & C7 & C8 & C9)].
      { right. split; auto. intros Hn. apply (Hn r); auto. eapply rs_rules; eauto. }
      assert (Hso : StronglySorted Nat.lt (lvs ts2)).
      { pose proof (inv_sorted _ _ _ _ H) as S. rewrite lvs_app in S. apply SSorted_app_inv in S. apply S. }
      destruct (gen args) as [v|e|] eqn:Ev.
      + destruct C9 as (s' & -> & Hi). do 3 eexists. exact Hi.
      + destruct C9 as (it & ->). exists k, r, ts2, args, gen. auto 10.
      + rewrite C9. left. exists k, r, ts2, args, gen. auto 10.
    - destruct Hc as (_ & Hp & -> & t & v & -> & C1 & ->). simpl. exists t.
      assert (Hg : input <> [] \/ ~ In (TM TErr) [NT start]) by (right; simpl; intros [Q|[]]; discriminate).
      pose proof (inv_twfs _ _ _ _ Hg H) as Htw. inversion Htw; subst.
      pose proof (inv_sorted _ _ _ _ H) as S. simpl in S. rewrite app_nil_r in S.
      repeat (split; auto). intros Hn. destruct (inv_noerr _ _ _ _ H Hn) as [E0 _]. simpl in E0. rewrite app_nil_r in E0. congruence.
    - destruct Hc as [_ [(it & -> & _)|(s' & -> & Hn & g' & ts' & ts2 & lo & hi & pos' & _ & _ & _ & _ & _ & Hi)]]; [exact I|].
      do 3 eexists. exact Hi.
  Qed.

  Theorem parse_sound fuel : parse_full tix P fuel input = OutOfFuel \/ good_end (parse_full tix P fuel input).
  Proof.
    unfold parse_full. apply (loop_inv (parse_step tix P) inv); [|apply inv_init].
    intros s (g & ts & pos & H). eapply step_inv; eauto.
  Qed.
End Inv.
