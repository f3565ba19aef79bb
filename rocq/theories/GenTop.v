(** * The parser that [parser!] generates is the one of the builder *)
From Coq Require Import List Arith Lia Bool String.
From Verif Require Import Lib Grammar LrModel LrSpec LrSets LrStates LrNew LrTop LrMono GramRename ParseModel Trees ParseSpec ParseInv ParseTop ParseMore ParseHash GenModel GenSpec GenProofs.
Import ListNotations.
Local Notation length := List.length.

(** ** The symbols of valid items *)
Section Occur.
  Variables (rs : list rule) (sr : nat).
  Lemma valid_la g it : valid rs sr g it -> i_la it = TEoi \/ occurs rs (i_la it).
  Proof.
    induction 1 as [|g k p la r X _ IH Hr HX|g k p la r A k' r' t _ IH Hr HA Hr' E0 Ht]; simpl in *; auto.
    rewrite firsts_firstl in Ht. apply firstl_occurs in Ht as [Ht|Ht]; [|auto]. apply in_app_iff in Ht as [Ht|[Ht|[]]].
    - right. exists r. split; [eapply nth_error_In; eauto|]. rewrite <- (firstn_skipn (S p) (r_rhs r)). apply in_app_iff. auto.
    - injection Ht as ->. auto.
  Qed.
  Lemma row_keys p g s row t a : canonical rs sr p -> state_of p g = Some s -> aget eqb s (p_action p) = Some row -> aget eqb t row = Some a -> t = TEoi \/ occurs rs t.
  Proof.
    intros C Hs Hrow Ha. destruct (can_action _ _ _ C _ _ Hs) as (row' & Erow & D). rewrite Hrow in Erow. injection Erow as <-. specialize (D t). rewrite Ha in D.
    destruct a as [q|k|]; simpl in D.
    - destruct D as [D _]. destruct (wants_In _ _ _ _ D) as (r & Hr & HX). right. exists r. auto.
    - destruct D as (_ & _ & _ & (r & _ & Hv) & _). apply valid_la in Hv. exact Hv.
    - left. apply D.
  Qed.
  Lemma goto_keys p g s row n q : canonical rs sr p -> state_of p g = Some s -> aget eqb s (p_goto p) = Some row -> aget eqb n row = Some q -> exists r, In r rs /\ In (NT n) (r_rhs r).
  Proof.
    intros C Hs Hrow Ha. assert (Hq : state_of p (g ++ [NT n]) = Some q) by (rewrite state_of_snoc, Hs; simpl; rewrite Hrow; auto).
    destruct (proj1 (can_state _ _ _ C _) (ex_intro _ q Hq)) as [it Hv]. apply (wants_In rs sr g). apply wants_valid. eauto.
  Qed.
End Occur.

(** ** The start rule and its reducer are never used *)
Section Drop.
  Context {N T E : Type} (tix : T -> nat).
  Variables (s : syntax N T E) (P : parser N T E) (ws : list warning) (ss : nat).
  Hypothesis Hm : made s P ws ss.
  Let p := pr_tab P.
  Let P0 := mk_lr1 (mk_parser (gram s) (p_action p) (p_goto p) (p_errors p) (p_start p)) (gens s).

  Lemma drop_recover eoi rc st : forall back cur head ehead, recover (pr_tab P0) (N := N) eoi rc back cur head ehead st = recover p eoi rc back cur head ehead st.
  Proof. induction st as [|[q e] st IH]; intros; cbn [recover]; [reflexivity|]. destruct e; rewrite ?IH; reflexivity. Qed.
  Lemma drop_step w st : turns tix P w st -> parse_step tix P0 st = parse_step tix P st /\ step_call tix P0 st = step_call tix P st /\ step_error tix P0 st = step_error tix P st.
  Proof.
    intros Ht. destruct (turns_inv tix s P ws ss w Hm st Ht) as (g & ts & pos & Hinv).
    assert (Hst : state_of p g = Some (ps_state (ps_read tix st))).
    { pose proof (inv_state _ _ _ _ _ _ _ _ _ _ Hinv) as H. unfold ps_read. destruct (ps_buf st); [destruct (ps_iter st)|]; exact H. }
    assert (Hred : forall t k, act p (ps_state (ps_read tix st)) t = Ok (Some (Reduce k)) -> nth_error (gram s) k = nth_error (p_rules p) k /\ nth_error (gens s) k = nth_error (pr_gens P) k).
    { intros t k Hk. destruct (can_action _ _ _ (md_can _ _ _ _ Hm) _ _ Hst) as (row & Erow & D). unfold act, p in Hk. rewrite Erow in Hk. cbn [of_opt bind] in Hk. injection Hk as Hk. specialize (D t). rewrite Hk in D.
      destruct D as (_ & _ & Hne & (r & Hr & _) & _). unfold p. rewrite (can_rules _ _ _ (md_can _ _ _ _ Hm)). rewrite augment_old in Hr |- * by auto. split; auto.
      rewrite (md_gens _ _ _ _ Hm), nth_error_app1; auto. unfold gens, gram in *. rewrite map_length. rewrite <- (map_length cr_rule). apply nth_error_Some. congruence. }
    unfold parse_step, step_call, step_error. cbv zeta.
    change (act (pr_tab P0)) with (act p). change (p_goto (pr_tab P0)) with (p_goto p).
    change (p_rules (pr_tab P0)) with (gram s). change (pr_gens P0) with (gens s). fold p.
    destruct (ps_buf (ps_read tix st)) as [|[t i] buf]; [auto|].
    destruct (act p (ps_state (ps_read tix st)) t) as [[[q|k|]|]| |] eqn:Ea; auto.
    - destruct (Hred t k Ea) as [-> ->]. auto.
    - rewrite drop_recover. auto.
  Qed.
  Lemma drop_loop w fuel : forall st, turns tix P w st -> loop (parse_step tix P0) fuel st = loop (parse_step tix P) fuel st /\
    calls tix P0 fuel st = calls tix P fuel st /\ errors tix P0 fuel st = errors tix P fuel st.
  Proof.
    induction fuel as [|fuel IH]; intros st Ht; [simpl; auto|]. cbn [loop calls errors]. destruct (drop_step w st Ht) as (-> & -> & ->).
    destruct (parse_step tix P st) as [st'|r] eqn:Es; [|auto]. destruct (IH st') as (-> & -> & ->); [eapply turns_step; eauto|]. auto.
  Qed.
End Drop.

(** ** The two grammars *)
Section Grammars.
  Context {N T E : Type} (nix : N -> nat) (tix : T -> nat).
  Variables (mi : minput N T E) (s : syntax N T E) (st : mstate) (i0 : nat).
  Let tm := name_map token_key_eqb (mi_tokens mi).
  Let sm := name_map String.eqb (mi_symbols mi).
  Let tokens := map (fun kv => tix (snd kv)) (mi_tokens mi).
  Let symbols := map (fun kv => nix (snd kv)) (mi_symbols mi).
  Hypothesis Hw : written nix tix mi s.
  Hypothesis Hloop : foldM (rule_step tm sm) (mi_rules mi) (mk_ms None [] sb_new) = Ok st.
  Hypothesis Hstart : aget String.eqb (mi_start mi) sm = Some i0.
  Definition tval (i : nat) : nat := nth i tokens 0.
  Definition sval (i : nat) : nat := nth i symbols 0.
  Let G := map cr_rule (ms_rules st).

  Lemma tok_val k i t : aget token_key_eqb k tm = Some i -> means (mi_tokens mi) k t -> nth_error tokens i = Some (tix t) /\ tval i = tix t.
  Proof.
    intros Hi Ht. destruct (name_map_means token_key_eqb token_key_eq _ _ _ Ht) as (i' & Hi' & Hn). fold tm in Hi'. assert (i' = i) by congruence. subst i'.
    assert (A : nth_error tokens i = Some (tix t)) by (unfold tokens; rewrite nth_error_map, Hn; auto). split; auto. unfold tval. apply (nth_error_nth _ _ 0) in A. auto.
  Qed.
  Lemma sym_val k i t : aget String.eqb k sm = Some i -> means (mi_symbols mi) k t -> nth_error symbols i = Some (nix t) /\ sval i = nix t.
  Proof.
    intros Hi Ht. destruct (name_map_means String.eqb String.eqb_eq _ _ _ Ht) as (i' & Hi' & Hn). fold sm in Hi'. assert (i' = i) by congruence. subst i'.
    assert (A : nth_error symbols i = Some (nix t)) by (unfold symbols; rewrite nth_error_map, Hn; auto). split; auto. unfold sval. apply (nth_error_nth _ _ 0) in A. auto.
  Qed.
  Lemma rule_name_fun (rules : list (bnf_rule N T E)) i n n' : rule_name rules i n -> rule_name rules i n' -> n = n'.
  Proof.
    intros (j & r & H1 & H2 & H3 & H4) (j' & r' & H1' & H2' & H3' & H4'). destruct (Nat.lt_trichotomy j j') as [H|[<-|H]].
    - rewrite (H4 j' r') in H3' by (auto; lia). discriminate.
    - assert (r' = r) by congruence. subst r'. congruence.
    - rewrite (H4' j r) in H3 by (auto; lia). discriminate.
  Qed.

  Definition real_sym (x : symbol N T unit) : sym :=
    match x with NonTerminal n => NT (nix n) | Terminal t => TM (TSym (tix t)) | ErrorSym _ => TM TErr end.
  Lemma items_real l : forall items ys, Forall2 (fun x y => item_symbol tm sm x = Ok y) l items -> Forall2 (sym_means mi) l ys ->
    map (rsym tval sval) (map to_sym items) = map real_sym ys /\
    mapM (gen_item tm sm tokens symbols) l = Ok (map (fun y => match y with NonTerminal n => NonTerminal (nix n) | Terminal t => Terminal (tix t) | ErrorSym e => ErrorSym e end) ys).
  Proof.
    induction l as [|x l IH]; intros items ys H1 H2; inversion H1 as [|? y0 ? items0 Ha H1']; subst; inversion H2 as [|? z0 ? ys0 Hb H2']; subst; [split; reflexivity|].
    cbn [map mapM]. destruct (IH _ _ H1' H2') as [IH1 IH2]. rewrite IH1, IH2.
    destruct x as [k|n|]; simpl in Ha; destruct z0 as [v|t|e0]; simpl in Hb; try contradiction.
    - apply bind_Ok in Ha as (i & Hi & Ha). injection Ha as <-. apply of_opt_Ok in Hi. destruct (tok_val _ _ _ Hi Hb) as [A B]. simpl. rewrite Hi. simpl. rewrite A. simpl. rewrite B. auto.
    - apply bind_Ok in Ha as (i & Hi & Ha). injection Ha as <-. apply of_opt_Ok in Hi. destruct (sym_val _ _ _ Hi Hb) as [A B]. simpl. rewrite Hi. simpl. rewrite A. simpl. rewrite B. auto.
    - injection Ha as <-. destruct e0. simpl. auto.
  Qed.

  Lemma rule_real i r c : nth_error (mi_rules mi) i = Some r -> nth_error (ms_rules st) i = Some c ->
    exists rc, nth_error (sx_rules s) i = Some rc /\ cr_rule rc = rrule tval sval (cr_rule c) /\
      gen_rule tm sm tokens symbols (ms_keys st) (i, r) = Ok rc.
  Proof.
    intros Hr Hc. destruct (loop_ok mi _ _ Hloop) as (_ & _ & L & _). destruct (L i r Hr) as (n & idx & items & Hn & Hg & Hk & Hit & Hrule).
    destruct Hw as (_ & _ & W). destruct (W i r Hr) as (n' & v & l & Hn' & Hv & Hl & Hs). rewrite (rule_name_fun _ _ _ _ Hn' Hn) in Hv.
    destruct (sym_val _ _ _ Hg Hv) as [A B]. destruct (items_real _ _ _ Hit Hl) as [C D]. rewrite Hc in Hrule. injection Hrule as ->.
    eexists. split; [exact Hs|]. split.
    - unfold rule_new, rule_new_raw, rrule. cbn [cr_rule r_lhs r_rhs]. rewrite C, B. reflexivity.
    - unfold gen_rule. cbn [fst snd]. rewrite Hk. cbn [of_opt bind]. rewrite A. cbn [of_opt bind]. rewrite D. cbn [bind]. unfold rule_new_raw, rule_new. f_equal. f_equal. f_equal.
      rewrite map_map. apply map_ext. intros [v0|t|e0]; reflexivity.
  Qed.
  Lemma nth_error_ext {A} (l l' : list A) : (forall i, nth_error l i = nth_error l' i) -> l = l'.
  Proof.
    revert l'. induction l as [|x l IH]; intros [|y l'] H; auto; try (specialize (H 0); discriminate).
    f_equal; [specialize (H 0); simpl in H; congruence|]. apply IH. intros i. apply (H (S i)).
  Qed.
  Lemma lens : length (mi_rules mi) = length (sx_rules s) /\ length (ms_rules st) = length (sx_rules s).
  Proof. destruct (loop_ok mi _ _ Hloop) as (_ & L & _). destruct Hw as (_ & W & _). split; congruence. Qed.
  Lemma gram_real : gram s = map (rrule tval sval) G.
  Proof.
    destruct lens as [L1 L2]. apply nth_error_ext. intros i. unfold gram, G. rewrite !nth_error_map.
    destruct (nth_error (ms_rules st) i) as [c|] eqn:Ec.
    - destruct (nth_error (mi_rules mi) i) as [r|] eqn:Er; [|apply nth_error_None in Er; assert (i < length (ms_rules st)) by (apply nth_error_Some; congruence); lia].
      destruct (rule_real i r c Er Ec) as (rc & -> & E1 & _). simpl. congruence.
    - apply nth_error_None in Ec. rewrite L2 in Ec. apply nth_error_None in Ec. rewrite Ec. reflexivity.
  Qed.
  Lemma gen_rules_real : mapM (gen_rule tm sm tokens symbols (ms_keys st)) (combine (seq 0 (length (mi_rules mi))) (mi_rules mi)) = Ok (sx_rules s).
  Proof.
    apply mapM_Ok. destruct lens as [L1 L2].
    assert (Gen : forall (l1 : list (bnf_rule N T E)) l2 b, length l1 = length l2 -> (forall j r, nth_error l1 j = Some r -> exists rc, nth_error l2 j = Some rc /\ gen_rule tm sm tokens symbols (ms_keys st) (b + j, r) = Ok rc) ->
      Forall2 (fun a c => gen_rule tm sm tokens symbols (ms_keys st) a = Ok c) (combine (seq b (length l1)) l1) l2).
    { induction l1 as [|r l1 IH]; intros [|c l2] b Hl H; try discriminate; simpl; constructor.
      - destruct (H 0 r eq_refl) as (rc & Hrc & Hg). simpl in Hrc. injection Hrc as ->. rewrite Nat.add_0_r in Hg. auto.
      - apply IH; [simpl in Hl; lia|]. intros j r0 Hj. destruct (H (S j) r0 Hj) as (rc & Hrc & Hg). exists rc. split; auto. rewrite <- Hg. do 2 f_equal. lia. }
    apply (Gen _ _ 0 L1). intros j r Hr.
    destruct (nth_error (ms_rules st) j) as [c|] eqn:Ec; [|apply nth_error_None in Ec; assert (j < length (mi_rules mi)) by (apply nth_error_Some; congruence); lia].
    destruct (rule_real j r c Hr Ec) as (rc & H1 & _ & H2). eauto.
  Qed.
  Lemma start_real : sx_start s = sval i0.
  Proof. destruct Hw as ((v & Hv & Hs) & _). destruct (sym_val _ _ _ Hstart Hv) as [_ B]. congruence. Qed.

  Lemma G_rule r : In r G -> exists idx n items l, r = mk_rule idx (map to_sym items) /\ aget String.eqb n sm = Some idx /\ Forall2 (fun x y => item_symbol tm sm x = Ok y) l items.
  Proof.
    intros Hr. unfold G in Hr. apply in_map_iff in Hr as (c & <- & Hc). apply In_nth_error in Hc as [i Hc]. destruct (loop_ok mi _ _ Hloop) as (_ & L0 & L & _).
    destruct (nth_error (mi_rules mi) i) as [r|] eqn:Er; [|apply nth_error_None in Er; assert (i < length (ms_rules st)) by (apply nth_error_Some; congruence); lia].
    destruct (L i r Er) as (n & idx & items & _ & Hg & _ & Hit & Hrule). rewrite Hc in Hrule. injection Hrule as ->. exists idx, n, items, (bn_rule r). auto.
  Qed.
  Lemma G_tok t : occurs G (TSym t) -> exists k, aget token_key_eqb k tm = Some t.
  Proof.
    intros (r & Hr & Ht). destruct (G_rule r Hr) as (idx & n & items & l & -> & _ & Hit). simpl in Ht. apply in_map_iff in Ht as (y & Hy & Ht).
    destruct (Forall2_In_r _ _ _ _ Hit Ht) as (x & _ & Hx). destruct y as [v|u|e0]; simpl in Hy; try discriminate. injection Hy as ->.
    destruct x as [k|m|]; simpl in Hx; try discriminate; apply bind_Ok in Hx as (i & Hi & Hx); try discriminate; injection Hx as ->; apply of_opt_Ok in Hi; eauto.
  Qed.
  Lemma G_nt a : In a (nonterminals G) -> exists k, aget String.eqb k sm = Some a.
  Proof.
    intros H. apply nonterminals_spec in H as (r & Hr & Ht). destruct (G_rule r Hr) as (idx & n & items & l & -> & Hidx & Hit). simpl in Ht. destruct Ht as [<-|Ht]; [eauto|].
    apply in_map_iff in Ht as (y & Hy & Ht). destruct (Forall2_In_r _ _ _ _ Hit Ht) as (x & _ & Hx). destruct y as [v|u|e0]; simpl in Hy; try discriminate. injection Hy as ->.
    destruct x as [k|m|]; simpl in Hx; try discriminate; apply bind_Ok in Hx as (i & Hi & Hx); try discriminate; injection Hx as ->; apply of_opt_Ok in Hi; eauto.
  Qed.
  Lemma G_eoi : no_eoi G.
  Proof.
    intros r Hr Ht. destruct (G_rule r Hr) as (idx & n & items & l & -> & _ & _). simpl in Ht. apply in_map_iff in Ht as (y & Hy & _). destruct y; discriminate.
  Qed.

  Hypothesis Dt : distinct tix (mi_tokens mi).
  Hypothesis Dn : distinct nix (mi_symbols mi).
  Lemma tval_inj k k' i j : aget token_key_eqb k tm = Some i -> aget token_key_eqb k' tm = Some j -> tval i = tval j -> i = j.
  Proof.
    intros Hi Hj E0. destruct (tm_get mi _ _ Hi) as (v & Hv & _). destruct (tm_get mi _ _ Hj) as (v' & Hv' & _).
    destruct (tok_val _ _ _ Hi Hv) as [_ A]. destruct (tok_val _ _ _ Hj Hv') as [_ B]. assert (k = k') by (apply (Dt k v k' v'); try apply means_In; auto; congruence). subst k'. congruence.
  Qed.
  Lemma sval_inj k k' i j : aget String.eqb k sm = Some i -> aget String.eqb k' sm = Some j -> sval i = sval j -> i = j.
  Proof.
    intros Hi Hj E0. destruct (sm_get mi _ _ Hi) as (v & Hv & _). destruct (sm_get mi _ _ Hj) as (v' & Hv' & _).
    destruct (sym_val _ _ _ Hi Hv) as [_ A]. destruct (sym_val _ _ _ Hj Hv') as [_ B]. assert (k = k') by (apply (Dn k v k' v'); try apply means_In; auto; congruence). subst k'. congruence.
  Qed.

  (** the renaming *)
  Lemma renaming ss ss' : ~ In ss (nonterminals G) -> ~ In ss' (nonterminals (gram s)) -> (i0 = ss <-> sx_start s = ss') ->
    exists f h, (forall x y, f x = f y -> x = y) /\ (forall x y, h x = h y -> x = y) /\
      (forall t, occurs G (TSym t) -> f t = tval t) /\ (forall a, In a (nonterminals G) \/ a = i0 -> h a = sval a) /\ h ss = ss' /\
      augment (gram s) (sx_start s) ss' = map (rrule f h) (augment G i0 ss).
  Proof.
    intros Hss Hss' Hst.
    set (D := flat_map (fun r => flat_map (fun X => match X with TM (TSym t) => [t] | _ => [] end) (r_rhs r)) G).
    assert (HD : forall t, In t D <-> occurs G (TSym t)).
    { intros t. unfold D. rewrite in_flat_map. split.
      - intros (r & Hr & Ht). apply in_flat_map in Ht as (X & HX & Ht). destruct X as [n|[u| |]]; simpl in Ht; try contradiction. destruct Ht as [->|[]]. exists r. auto.
      - intros (r & Hr & Ht). exists r. split; auto. apply in_flat_map. exists (TM (TSym t)). split; auto. left. auto. }
    destruct (extend D tval) as (f & Hf & Hfv).
    { intros x y Hx Hy. apply HD in Hx. apply HD in Hy. destruct (G_tok _ Hx) as [k Hk]. destruct (G_tok _ Hy) as [k' Hk']. eapply tval_inj; eauto. }
    assert (Hnt' : forall a, In a (nonterminals G) -> In (sval a) (nonterminals (gram s))).
    { intros a Ha. apply nonterminals_spec in Ha as (r & Hr & H). apply nonterminals_spec. exists (rrule tval sval r). rewrite gram_real. split; [apply in_map; auto|].
      destruct H as [<-|H]; [left; auto|right]. unfold rrule. simpl. apply in_map_iff. exists (NT a). auto. }
    assert (Hu : forall a, In a (nonterminals G) \/ a = i0 -> exists k, aget String.eqb k sm = Some a).
    { intros a [Ha| ->]; [apply G_nt; auto|eauto]. }
    set (v := fun a => if Nat.eqb a ss then ss' else sval a).
    assert (Hv : forall a, In a (nonterminals G) \/ a = i0 -> v a = sval a).
    { intros a Ha. unfold v. destruct (Nat.eqb a ss) eqn:E0; auto. apply Nat.eqb_eq in E0. destruct Ha as [Ha|Ha]; [subst; contradiction|]. rewrite <- (proj1 Hst) by congruence. rewrite start_real. congruence. }
    assert (Hvss : v ss = ss') by (unfold v; rewrite Nat.eqb_refl; auto).
    assert (Hx : forall a, In a (nonterminals G) \/ a = i0 -> sval a = ss' -> a = ss).
    { intros a [Ha| ->] E0; [exfalso; apply Hss'; rewrite <- E0; apply Hnt'; auto|]. apply Hst. rewrite start_real. auto. }
    destruct (extend (ss :: i0 :: nonterminals G) v) as (h & Hh & Hhv).
    { assert (HH : forall a, In a (ss :: i0 :: nonterminals G) -> a = ss \/ (In a (nonterminals G) \/ a = i0)) by (intros a [<-|[<-|H]]; auto).
      intros x y Hx0 Hy0 E0. apply HH in Hx0. apply HH in Hy0. destruct Hx0 as [->|Hx0]; destruct Hy0 as [->|Hy0]; auto.
      - rewrite Hvss in E0. rewrite (Hv y Hy0) in E0. symmetry. apply Hx; auto.
      - rewrite Hvss in E0. rewrite (Hv x Hx0) in E0. apply Hx; auto.
      - rewrite (Hv x Hx0), (Hv y Hy0) in E0. destruct (Hu x Hx0) as [k Hk]. destruct (Hu y Hy0) as [k' Hk']. eapply sval_inj; eauto. }
    exists f, h. split; auto. split; auto. split; [intros t Ht; apply Hfv, HD; auto|].
    assert (Hhn : forall a, In a (nonterminals G) \/ a = i0 -> h a = sval a).
    { intros a Ha. rewrite <- (Hv a Ha). apply Hhv. destruct Ha as [Ha| ->]; simpl; auto. }
    split; auto. assert (Hhss : h ss = ss') by (rewrite <- Hvss; apply Hhv; left; auto). split; auto.
    unfold augment. rewrite map_app. f_equal.
    - rewrite gram_real. apply map_ext_in. intros r Hr. unfold rrule. f_equal.
      + symmetry. apply Hhn. left. apply nonterminals_spec. exists r. auto.
      + apply map_ext_in. intros [n|[t| |]] HX; simpl; auto.
        * f_equal. symmetry. apply Hhn. left. apply nonterminals_spec. exists r. auto.
        * do 2 f_equal. symmetry. apply Hfv. apply HD. exists r. auto.
    - simpl. unfold rrule. simpl. rewrite Hhss, (Hhn i0) by auto. rewrite start_real. reflexivity.
  Qed.

  (** the generated tables *)
  Lemma tables g (p : lr_parser) ss f h : gen_env_ok g -> canonical (augment G i0 ss) (length G) p ->
    (forall x y, f x = f y -> x = y) -> (forall x y, h x = h y -> x = y) ->
    (forall t, occurs G (TSym t) -> f t = tval t) -> (forall a, In a (nonterminals G) \/ a = i0 -> h a = sval a) ->
    exists act go, gen_action g tokens (p_action p) = Ok act /\ gen_goto g symbols (p_goto p) = Ok go /\
      forall rules, renamed f h p (mk_parser rules act go (gen_errors g (p_errors p)) (p_start p)).
  Proof.
    intros (W1 & W2 & W3 & W4 & W5 & W6) C Hf Hh Hft Hhn.
    assert (Hocc : forall t, occurs (augment G i0 ss) t -> occurs G t).
    { intros t (r & Hr & Ht). unfold augment in Hr. apply in_app_iff in Hr as [Hr|[<-|[]]]; [exists r; auto|]. simpl in Ht. destruct Ht as [Ht|[]]. discriminate. }
    assert (Hterm : forall t, occurs G t \/ t = TEoi -> gen_term tokens t = Ok (rterm f t)).
    { intros t Ht. destruct t as [t| |]; simpl; auto. destruct Ht as [Ht|Ht]; [|discriminate]. destruct (G_tok t Ht) as [k Hk]. destruct (tm_get mi _ _ Hk) as (x & Hx & _).
      destruct (tok_val _ _ _ Hk Hx) as [A B]. rewrite A. simpl. rewrite (Hft t Ht), B. auto. }
    assert (Hnt : forall a, In a (nonterminals G) \/ a = i0 -> of_opt (nth_error symbols a) = Ok (h a)).
    { intros a Ha. assert (Hk : exists k, aget String.eqb k sm = Some a) by (destruct Ha as [Ha| ->]; [apply G_nt; auto|eauto]). destruct Hk as [k Hk]. destruct (sm_get mi _ _ Hk) as (x & Hx & _).
      destruct (sym_val _ _ _ Hk Hx) as [A B]. rewrite A. simpl. rewrite (Hhn a Ha), B. auto. }
    (* rows *)
    assert (Harow : forall q row, aget eqb q (p_action p) = Some row -> exists row', gen_action_row g tokens row = Ok row' /\
              (forall t, aget eqb (rterm f t) row' = aget eqb t row) /\ (forall t' a, aget eqb t' row' = Some a -> exists t, t' = rterm f t)).
    { intros q row Hrow. destruct (can_reached _ _ _ C _ _ Hrow) as [gg Hgg]. destruct (W2 row) as [Nd Wr].
      destruct (insert_ok (@eqb term _) (@eqb term _) eqb_eq eqb_eq (gen_term tokens) (@Ok (action nat)) (rterm f) (rterm_inj f Hf) (ge_action_row g row) Nd) as (m & Em & M1 & M2).
      { intros t a Hin. split; [|eauto]. apply Hterm. assert (Ha : aget eqb t row = Some a) by (rewrite <- Wr; apply (aget_NoDup eqb eqb_eq); auto).
        destruct (row_keys _ _ _ _ _ _ _ _ C Hgg Hrow Ha) as [->|H]; auto. }
      exists m. split; [exact Em|]. split; auto. intros t. rewrite M1, Wr. destruct (aget eqb t row); auto. }
    assert (Hgrow : forall q row, aget eqb q (p_goto p) = Some row -> exists row', gen_goto_row g symbols row = Ok row' /\
              (forall t, aget eqb (h t) row' = aget eqb t row) /\ (forall t' a, aget eqb t' row' = Some a -> exists t, t' = h t)).
    { intros q row Hrow. destruct (can_goto_reached _ _ _ C _ _ Hrow) as [gg Hgg]. destruct (W4 row) as [Nd Wr].
      destruct (insert_ok (@eqb nat _) (@eqb nat _) eqb_eq eqb_eq (fun k => of_opt (nth_error symbols k)) (@Ok nat) h Hh (ge_goto_row g row) Nd) as (m & Em & M1 & M2).
      { intros t a Hin. split; [|eauto]. apply Hnt. assert (Ha : aget eqb t row = Some a) by (rewrite <- Wr; apply (aget_NoDup eqb eqb_eq); auto).
        destruct (goto_keys _ _ _ _ _ _ _ _ C Hgg Hrow Ha) as (r & Hr & Hin2). unfold augment in Hr. apply in_app_iff in Hr as [Hr|[<-|[]]]; [left; apply nonterminals_spec; exists r; auto|].
        simpl in Hin2. destruct Hin2 as [Hin2|[]]. right. congruence. }
      exists m. split; [exact Em|]. split; auto. intros t. rewrite M1, Wr. destruct (aget eqb t row); auto. }
    destruct (W1 (p_action p)) as [Nd1 Wa1].
    destruct (insert_ok (@eqb nat _) (@eqb nat _) eqb_eq eqb_eq (@Ok nat) (gen_action_row g tokens) (fun x => x) (fun x y E0 => E0) (ge_action g (p_action p)) Nd1) as (act & Eact & A1 & _).
    { intros q row Hin. split; auto. assert (Ha : aget eqb q (p_action p) = Some row) by (rewrite <- Wa1; apply (aget_NoDup eqb eqb_eq); auto). destruct (Harow q row Ha) as (row' & H & _). eauto. }
    destruct (W3 (p_goto p)) as [Nd3 Wa3].
    destruct (insert_ok (@eqb nat _) (@eqb nat _) eqb_eq eqb_eq (@Ok nat) (gen_goto_row g symbols) (fun x => x) (fun x y E0 => E0) (ge_goto g (p_goto p)) Nd3) as (go & Ego & G1 & _).
    { intros q row Hin. split; auto. assert (Ha : aget eqb q (p_goto p) = Some row) by (rewrite <- Wa3; apply (aget_NoDup eqb eqb_eq); auto). destruct (Hgrow q row Ha) as (row' & H & _). eauto. }
    exists act, go. split; [exact Eact|]. split; [exact Ego|]. intros rules. constructor; cbn [p_start p_action p_goto p_errors]; auto.
    - intros q. rewrite A1, Wa1. destruct (aget eqb q (p_action p)) as [row|] eqn:Er; auto. destruct (Harow q row Er) as (row' & -> & H). exact H.
    - intros q. rewrite G1, Wa3. destruct (aget eqb q (p_goto p)) as [row|] eqn:Er; auto. destruct (Hgrow q row Er) as (row' & -> & H). exact H.
    - intros q. destruct (W5 (p_errors p)) as [Nd5 Wa5].
      destruct (insert_ok (@eqb nat _) (@eqb nat _) eqb_eq eqb_eq (@Ok nat) (fun r => Ok (ge_error_row g r)) (fun x => x) (fun x y E0 => E0) (ge_errors g (p_errors p)) Nd5) as (er & Eer & R1 & _).
      { intros; split; eauto. }
      assert (Efold : forall l m, foldM (insert_step (@eqb nat _) (@Ok nat) (fun r => Ok (ge_error_row g r))) l m = Ok (fold_left (fun m kr => aset eqb (fst kr) (ge_error_row g (snd kr)) m) l m)).
      { induction l as [|x l IH]; intros m; simpl; auto. }
      rewrite Efold in Eer. injection Eer as Eer. unfold gen_errors. rewrite Eer, R1, Wa5. destruct (aget eqb q (p_errors p)) as [ks|]; auto.
  Qed.
End Grammars.
