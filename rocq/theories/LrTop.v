(** * LR1Parser::new end to end *)
From Coq Require Import List Arith Lia Bool Permutation.
From Verif Require Import Lib Grammar LrModel LrSpec LrSets LrClosure LrStates LrTable LrNew.
Import ListNotations.

Lemma run_app p s g1 g2 : run p s (g1 ++ g2) = match run p s g1 with Some s' => run p s' g2 | None => None end.
Proof. revert s. induction g1 as [|X g1 IH]; simpl; intros s; [auto|]. destruct (next_state p s X); auto. Qed.
Lemma state_of_snoc p g X : state_of p (g ++ [X]) = match state_of p g with Some s => next_state p s X | None => None end.
Proof. unfold state_of. rewrite run_app. destruct (run p (p_start p) g); [|auto]. simpl. destruct (next_state p n X); auto. Qed.

Section Assoc_perm.
  Context {K V : Type} (keq : K -> K -> bool) (keq_eq : forall a b, keq a b = true <-> a = b).
  Lemma aget_perm (m m' : list (K * V)) k : Permutation m m' -> NoDup (map fst m) -> aget keq k m' = aget keq k m.
  Proof.
    intros Hp Hnd. assert (Hnd' : NoDup (map fst m')) by (eapply Permutation_NoDup; [apply Permutation_map; eauto|auto]).
    destruct (aget keq k m) as [v|] eqn:E.
    - apply (aget_In keq keq_eq) in E. apply (aget_NoDup keq keq_eq); auto. eapply Permutation_in; eauto.
    - apply (aget_None keq keq_eq). apply (aget_None keq keq_eq) in E. intros H. apply E.
      eapply Permutation_in; [apply Permutation_sym, Permutation_map; eauto|auto].
  Qed.
End Assoc_perm.

Lemma wants_valid rs sr g X : wants rs sr g X <-> exists it, valid rs sr (g ++ [X]) it.
Proof.
  split.
  - intros (k & p & la & r & H1 & H2 & H3). eexists. eapply valid_goto; eauto.
  - intros [it H]. apply valid_snoc in H.
    assert (G : exists i, moved rs (valid rs sr g) X i) by (induction H; eauto).
    destruct G as (i & k & p & la & r & H1 & H2 & H3 & _). exists k, p, la, r. auto.
Qed.
Lemma valid_snoc_ext rs sr g g' X : (forall it, valid rs sr g it <-> valid rs sr g' it) ->
  forall it, valid rs sr (g ++ [X]) it <-> valid rs sr (g' ++ [X]) it.
Proof.
  intros H it. rewrite !valid_snoc. split; apply clos_mono; intros i (k & p & la & r & H1 & H2); exists k, p, la, r; (split; [apply H; auto|auto]).
Qed.


Lemma augment_len rules start ss : length (augment rules start ss) = S (length rules).
Proof. unfold augment. rewrite app_length. simpl. lia. Qed.
Lemma augment_start rules start ss : nth_error (augment rules start ss) (length rules) = Some (mk_rule ss [NT start]).
Proof. unfold augment. rewrite nth_error_app2 by lia. rewrite Nat.sub_diag. reflexivity. Qed.
Lemma augment_old rules start ss k : k <> length rules -> nth_error (augment rules start ss) k = nth_error rules k.
Proof.
  intros H. unfold augment. destruct (Nat.lt_ge_cases k (length rules)) as [Hl|Hl].
  - apply nth_error_app1. auto.
  - rewrite (proj2 (nth_error_None rules k)) by lia. apply nth_error_None. rewrite app_length. simpl. lia.
Qed.

(** An item of the start rule is only valid with the end of the input as lookahead. *)
Lemma start_item_la rules start ss : ~ In ss (nonterminals rules) ->
  forall g it, valid (augment rules start ss) (length rules) g it -> i_rule it = length rules -> i_la it = TEoi.
Proof.
  intros Hss. induction 1 as [|g k p la r X H IH Hr Hp|g k p la r A k' r' t H IH Hr Hp Hr' HA Ht]; simpl in *; intros E; auto.
  subst k'. rewrite augment_start in Hr'. injection Hr' as <-. simpl in HA. subst A.
  destruct (Nat.eq_dec k (length rules)) as [->|Hn].
  - rewrite augment_start in Hr. injection Hr as <-. specialize (IH eq_refl). subst la.
    simpl in Hp. destruct p as [|p]; [|simpl in Hp; destruct p; discriminate].
    simpl in Ht. apply firsts_firstl in Ht. inversion Ht; subst; auto.
    match goal with H : der _ (TM _) [] |- _ => inversion H end.
  - exfalso. rewrite augment_old in Hr by auto. apply Hss, nonterminals_spec. exists r. split; [eapply nth_error_In; eauto|].
    right. eapply nth_error_In; eauto.
Qed.

Definition no_eoi (rules : list rule) : Prop := forall r, In r rules -> ~ In (TM TEoi) (r_rhs r).

Lemma wants_In rs sr g X : wants rs sr g X -> exists r, In r rs /\ In X (r_rhs r).
Proof. intros (k & p & la & r & _ & H2 & H3). exists r. split; eapply nth_error_In; eauto. Qed.

Lemma dangling_bad rs sr : dangling rs sr <-> exists g it, valid rs sr g it /\ bad rs it.
Proof.
  split.
  - intros (g & k & p & la & r & A & t & H1 & H2 & H3 & H4 & H5). exists g, (mk_item k p la). split; [auto|]. exists r, A, t. auto.
  - intros (g & [k p la] & H1 & r & A & t & H2 & H3 & H4 & H5). exists g, k, p, la, r, A, t. auto 10.
Qed.

Lemma least (Q : nat -> Prop) n : (forall k, Q k \/ ~ Q k) -> Q n -> exists k, Q k /\ forall k', Q k' -> k <= k'.
Proof.
  intros Hd Hn. induction n as [n IH] using (well_founded_induction lt_wf).
  destruct (Nat.eq_dec n 0) as [->|H0]; [exists 0; split; [auto|intros; lia]|].
  assert (G : (exists k, k < n /\ Q k) \/ (forall k, k < n -> ~ Q k)).
  { clear - Hd. induction n as [|n [(k & H1 & H2)|H]].
    - right. intros; lia.
    - left. exists k. split; [lia|auto].
    - destruct (Hd n) as [H1|H1].
      + left. exists n. split; [lia|auto].
      + right. intros k Hk. destruct (Nat.eq_dec k n) as [->|]; auto. apply H. lia. }
  destruct G as [(k & H1 & H2)|H]; [apply (IH k); auto|]. exists n. split; [auto|]. intros k' Hk'.
  destruct (Nat.le_gt_cases n k'); auto. exfalso. eapply H; eauto.
Qed.

Definition new_result (rules : list rule) (start ss : nat) (r : res (lr_parser * list warning)) : Prop :=
  let rs := augment rules start ss in
  let sr := length rules in
  match r with
  | Ok (p, w) => canonical rs sr p /\ ~ dangling rs sr /\ (forall x, In x w <-> conflict rs sr x) /\
      (w = [] <-> conflict_free rs sr) /\
      (exists c, w = map fst c /\ NoDup c /\ forall x t, In (x, t) c <-> conflict_at rs sr x t)
  | Panic => dangling rs sr
  | OutOfFuel => False
  end.

Theorem lr_new_ok e rules start : lr_env_ok e -> no_eoi rules ->
  exists ss, start_symbol rules = Ok ss /\ ~ In ss (nonterminals rules) /\
  exists F r, (forall fuel, F <= fuel -> lr_new e fuel rules start = r) /\ new_result rules start ss r.
Proof.
  intros (He1 & He2 & He3) Heoi. destruct (start_symbol_ok rules) as (ss & Ess & Hss & _). exists ss. split; [auto|]. split; [auto|].
  unfold new_result. set (sr := length rules). set (rs := augment rules start ss).
  assert (Hlen : length rs = S sr) by apply augment_len.
  assert (Hsr : exists r, nth_error rs sr = Some r) by (eexists; apply augment_start).
  assert (Heoi' : forall r, In r rs -> ~ In (TM TEoi) (r_rhs r)).
  { intros r Hr H. unfold rs, augment in Hr. apply in_app_iff in Hr as [Hr|[<-|[]]]; [eapply Heoi; eauto|].
    simpl in H. destruct H as [H|[]]. discriminate. }
  assert (Hla : forall g it, valid rs sr g it -> i_rule it = sr -> i_la it = TEoi) by (apply start_item_la; auto).
  destruct (calc_null_ok rs) as (F1 & nl & Hnl & E1).
  destruct (calc_first_ok rs nl Hnl) as (F2 & fm & Hfm & E2).
  destruct (start_state_ok rs sr nl fm Hnl Hfm Hsr) as (F3 & r3 & E3 & H3).
  destruct r3 as [s0| |]; [| |destruct H3].
  2:{ exists (F1 + F2 + F3), Panic. split.
      - intros fuel Hf. unfold lr_new. rewrite Ess. cbn [bind]. fold (augment rules start ss). fold rs.
        rewrite E1 by lia. cbn [bind]. rewrite E2 by lia. cbn [bind]. fold sr. rewrite E3 by lia. reflexivity.
      - apply dangling_bad. exists []. exact H3. }
  destruct H3 as [H0 H0b].
  assert (Hnode : node rs sr s0).
  { exists []. split; [auto|]. split; [|auto]. eexists. constructor. }
  destruct (calc_all_goto_ok rs sr nl fm Hnl Hfm Hsr (le_values e) s0 He1 Hnode) as (F4 & r4 & E4 & H4).
  destruct r4 as [sl| |]; [| |destruct H4].
  2:{ exists (F1 + F2 + F3 + F4), Panic. split.
      - intros fuel Hf. unfold lr_new. rewrite Ess. cbn [bind]. fold (augment rules start ss). fold rs.
        rewrite E1 by lia. cbn [bind]. rewrite E2 by lia. cbn [bind]. fold sr. rewrite E3 by lia. cbn [bind]. rewrite E4 by lia. reflexivity.
      - apply dangling_bad. exact H4. }
  destruct H4 as (S1 & S2 & S3 & S4 & S5).
  set (keys := map fst (le_keys e sl)). set (ix := fun s => index_of list_eqb s keys).
  assert (Pk : Permutation (map fst sl) keys) by (apply Permutation_map; auto).
  assert (Hkeys : NoDup keys) by (eapply Permutation_NoDup; eauto).
  assert (Hix : forall st i, ix st = Some i <-> nth_error keys i = Some st).
  { intros st i. unfold ix. split.
    - apply (index_of_Some list_eqb list_eqb_eq).
    - apply (index_of_nth list_eqb list_eqb_eq). auto. }
  assert (Hixe : forall st, In st (map fst sl) -> exists i, ix st = Some i).
  { intros st Hst. apply (index_of_In list_eqb list_eqb_eq). eapply Permutation_in; eauto. }
  assert (Hinj : forall st st' i, ix st = Some i -> ix st' = Some i -> st = st').
  { intros st st' i A B. apply Hix in A. apply Hix in B. congruence. }
  (* the entries *)
  assert (Hsub : forall st go, aget list_eqb st sl = Some go -> entry_ok rs sr st go).
  { intros st go H. apply (aget_In list_eqb list_eqb_eq) in H. rewrite Forall_forall in S3. apply (S3 _ H). }
  assert (Hent : forall st go g, aget list_eqb st sl = Some go -> rep rs sr g st ->
      NoDup (map fst go) /\ (forall X c, aget eqb X go = Some c -> rep rs sr (g ++ [X]) c /\ wants rs sr g X /\ In c (map fst sl)) /\
      (forall X, aget eqb X go = None -> ~ wants rs sr g X)).
  { intros st go g Hget Hg. destruct (Hsub st go Hget) as (g0 & A1 & A2 & A3 & A4 & A5).
    assert (Heq : forall it, valid rs sr g0 it <-> valid rs sr g it).
    { intros it. destruct Hg as [_ Hg]. destruct A1 as [_ A1]. rewrite <- Hg, <- A1. reflexivity. }
    split; [auto|]. split.
    - intros X c HX. apply (aget_In eqb eqb_eq) in HX. destruct (A4 X c HX) as [[B1 B2] [it B3]]. split; [|split].
      + split; [auto|]. intros i. rewrite B2. apply valid_snoc_ext. auto.
      + apply wants_valid. exists it. apply (valid_snoc_ext rs sr g0 g X Heq). auto.
      + eapply S4; [apply (aget_In list_eqb list_eqb_eq); eauto|eauto].
    - intros X HX Hw. apply wants_valid in Hw as [it Hit]. apply (valid_snoc_ext rs sr g0 g X Heq) in Hit.
      destruct (A5 X it Hit) as [c Hc]. apply (aget_None eqb eqb_eq) in HX. apply HX. apply in_map_iff. exists (X, c). auto. }
  assert (Hpre : Forall (pre_entry rs) (le_into e sl)).
  { apply Forall_forall. intros [st go] Hin. apply (Permutation_in _ (Permutation_sym (He3 sl))) in Hin.
    assert (Hget : aget list_eqb st sl = Some go) by (apply (aget_NoDup list_eqb list_eqb_eq); auto).
    destruct (Hsub st go Hget) as (g0 & A1 & A2 & A3 & A4 & A5).
    split; [apply A1|]. split; [eapply rep_wf; eauto|]. split; [auto|]. simpl. intros H.
    apply in_map_iff in H as ([X c] & HX & H). simpl in HX. subst X.
    destruct (A4 _ _ H) as [_ Hit]. apply wants_valid in Hit. apply wants_In in Hit as (r & H1 & H2). eapply Heoi'; eauto. }
  assert (Hnd_into : NoDup (map fst (le_into e sl))) by (eapply Permutation_NoDup; [apply Permutation_map; apply He3|auto]).
  destruct (table_fold rs sr Hlen (le_into e sl) (mk_tables [] [] []) Hnd_into Hpre) as (tb & Et & T1 & T2 & T3 & T4 & cs & T5 & T6 & T7);
    [intros st _; simpl; auto|constructor|constructor|].
  assert (T1' : forall st, match aget list_eqb st sl with
                  | Some go => exists a, aget list_eqb st (tb_action tb) = Some a /\ NoDup (map fst a) /\ row_spec rs sr (fst (row_shifts go)) st a
                  | None => aget list_eqb st (tb_action tb) = None
                  end).
  { intros st. specialize (T1 st). rewrite (aget_perm list_eqb list_eqb_eq sl) in T1; auto. }
  assert (T2' : forall st, aget list_eqb st (tb_goto tb) =
                  match aget list_eqb st sl with
                  | Some go => match snd (row_shifts go) with [] => None | r => Some r end
                  | None => None
                  end).
  { intros st. rewrite (T2 st). rewrite (aget_perm list_eqb list_eqb_eq sl); auto. }
  clear T1 T2.
  (* numbering the action table *)
  assert (Hrow : forall st a, aget list_eqb st (tb_action tb) = Some a -> exists i a', ix st = Some i /\ number_row (number_action ix) a = Ok a').
  { intros st a Ha. specialize (T1' st). destruct (aget list_eqb st sl) as [go|] eqn:Eg; [|congruence].
    destruct T1' as (a' & Ha' & Hnda & Hrs). rewrite Ha in Ha'. injection Ha' as <-.
    assert (Hin : In st (map fst sl)) by (apply (aget_In list_eqb list_eqb_eq) in Eg; apply in_map_iff; exists (st, go); auto).
    destruct (Hixe st Hin) as [i Hi]. exists i.
    destruct (S5 st Hin) as (g & Hg & _). destruct (Hent st go g Eg Hg) as (B1 & B2 & B3).
    destruct (number_row_ok (@eqb term _) (number_action ix) a) as (a' & Ea' & _).
    - intros t x Hx. assert (Hx' : aget eqb t a = Some x) by (apply (aget_NoDup eqb eqb_eq); auto).
      specialize (Hrs t). rewrite Hx' in Hrs. destruct x as [c|k|]; simpl; [|eauto|eauto].
      destruct (row_shifts_spec go B1) as (R1 & _). rewrite R1 in Hrs.
      destruct (aget eqb (TM t) go) as [c'|] eqn:Ec; [|discriminate]. injection Hrs as ->.
      destruct (B2 _ _ Ec) as (_ & _ & Hc). destruct (Hixe c Hc) as [j Hj]. rewrite Hj. simpl. eauto.
    - eauto. }
  destruct (number_table_ok ix (number_row (number_action ix)) (tb_action tb) T3) as (act & Eact & Hact & Hactk); [|exact Hinj|].
  { intros st a Ha. apply Hrow. apply (aget_NoDup list_eqb list_eqb_eq); auto. }
  (* the goto table *)
  assert (Hgrow : forall st a, aget list_eqb st (tb_goto tb) = Some a -> exists i a', ix st = Some i /\ number_row (fun s => of_opt (ix s)) a = Ok a').
  { intros st a Ha. rewrite T2' in Ha. destruct (aget list_eqb st sl) as [go|] eqn:Eg; [|discriminate].
    assert (Hin : In st (map fst sl)) by (apply (aget_In list_eqb list_eqb_eq) in Eg; apply in_map_iff; exists (st, go); auto).
    destruct (Hixe st Hin) as [i Hi]. exists i.
    destruct (S5 st Hin) as (g & Hg & _). destruct (Hent st go g Eg Hg) as (B1 & B2 & B3).
    destruct (row_shifts_spec go B1) as (R1 & R2 & R3 & R4).
    assert (Ea : a = snd (row_shifts go)) by (destruct (snd (row_shifts go)); congruence). subst a.
    destruct (number_row_ok (@eqb nat _) (fun s => of_opt (ix s)) (snd (row_shifts go))) as (a' & Ea' & _); [|eauto].
    intros n c Hc. assert (Hc' : aget eqb n (snd (row_shifts go)) = Some c) by (apply (aget_NoDup eqb eqb_eq); auto).
    rewrite R2 in Hc'. destruct (B2 _ _ Hc') as (_ & _ & Hcin). destruct (Hixe c Hcin) as [j Hj]. rewrite Hj. simpl. eauto. }
  destruct (number_table_ok ix (number_row (fun s => of_opt (ix s))) (tb_goto tb) T4) as (gt & Egt & Hgt & Hgtk); [|exact Hinj|].
  { intros st a Ha. apply Hgrow. apply (aget_NoDup list_eqb list_eqb_eq); auto. }
  (* the error rules *)
  destruct (error_rules_fold rs (combine keys (seq 0 (length keys))) []) as (errs & Eerr & _ & Herr).
  { apply Forall_forall. intros [st i] Hin. apply In_enum' in Hin. apply nth_error_In in Hin. simpl.
    apply (Permutation_in _ (Permutation_sym Pk)) in Hin. destruct (S5 st Hin) as (g & Hg & _). eapply rep_wf; eauto. }
  { rewrite map_snd_enum. apply seq_NoDup. }
  { intros i _. reflexivity. }
  destruct (Hixe s0 S2) as [i0 Hi0].
  set (p := mk_parser rs act gt errs i0).
  exists (F1 + F2 + F3 + F4), (Ok (p, tb_warn tb)). split.
  { intros fuel Hf. unfold lr_new. rewrite Ess. cbn [bind]. fold (augment rules start ss). fold rs.
    rewrite E1 by lia. cbn [bind]. rewrite E2 by lia. cbn [bind]. fold sr. rewrite E3 by lia. cbn [bind]. rewrite E4 by lia. cbn [bind].
    fold keys. change (fun s : list item => index_of list_eqb s keys) with ix.
    unfold calc_table. rewrite Et. cbn [bind]. rewrite Eact. cbn [bind].
    change (fun s : list item => of_opt (index_of list_eqb s keys)) with (fun s => of_opt (ix s)). rewrite Egt. cbn [bind].
    unfold calc_error_rules. rewrite Eerr. cbn [bind]. fold (ix s0). rewrite Hi0. reflexivity. }
  (* states *)
  assert (Hkin : forall st i, nth_error keys i = Some st -> In st (map fst sl)).
  { intros st i H. apply nth_error_In in H. apply (Permutation_in _ (Permutation_sym Pk)) in H. auto. }
  assert (Hslget : forall st, In st (map fst sl) -> exists go, aget list_eqb st sl = Some go).
  { intros st H. destruct (aget list_eqb st sl) eqn:E; [eauto|]. apply (aget_None list_eqb list_eqb_eq) in E. contradiction. }
  assert (Hnext : forall st i g X, nth_error keys i = Some st -> rep rs sr g st ->
     match next_state p i X with
     | Some j => exists c, nth_error keys j = Some c /\ rep rs sr (g ++ [X]) c /\ wants rs sr g X
     | None => ~ wants rs sr g X
     end).
  { intros st i g X Hi Hg. destruct (Hslget st (Hkin _ _ Hi)) as [go Hgo].
    destruct (Hent st go g Hgo Hg) as (B1 & B2 & B3). destruct (row_shifts_spec go B1) as (R1 & R2 & R3 & R4).
    apply Hix in Hi. destruct X as [n|t]; unfold next_state, p; cbn [p_action p_goto].
    - pose proof (Hgt st i Hi) as Hgt'. rewrite T2', Hgo in Hgt'.
      specialize (B3 (NT n)). specialize (B2 (NT n)). rewrite <- R2 in B2, B3.
      destruct (snd (row_shifts go)) as [|x row0] eqn:Erow.
      + rewrite Hgt'. apply B3. reflexivity.
      + destruct (number_row_ok (@eqb nat _) (fun s => of_opt (ix s)) (x :: row0)) as (a' & Ea' & _ & Ha').
        { intros m c Hc. assert (Hc' : aget eqb m (x :: row0) = Some c) by (apply (aget_NoDup eqb eqb_eq); auto).
          rewrite R2 in Hc'. destruct (Hent st go g Hgo Hg) as (_ & B2' & _). destruct (B2' _ _ Hc') as (_ & _ & Hcin).
          destruct (Hixe c Hcin) as [j Hj]. rewrite Hj. simpl. eauto. }
        rewrite Ea' in Hgt'. rewrite Hgt'. rewrite Ha'. destruct (aget eqb n (x :: row0)) as [c|].
        * destruct (B2 c eq_refl) as (C1 & C2 & C3). destruct (Hixe c C3) as [j Hj]. rewrite Hj. simpl. exists c.
          split; [apply Hix; auto|]. auto.
        * apply B3. reflexivity.
    - specialize (T1' st). rewrite Hgo in T1'. destruct T1' as (a & Ha & Hnda & Hrs).
      destruct (Hrow st a Ha) as (i' & a' & Hi' & Ea').
      rewrite (Hact st i Hi), Ha, Ea'.
      destruct (number_row_ok (@eqb term _) (number_action ix) a) as (a'' & Ea'' & _ & Hget).
      { intros t' x Hx. unfold number_row in Ea'. clear - Ea' Hx. revert a' Ea'. induction a as [|[t0 x0] a IH]; [destruct Hx|].
        intros a' E. cbn [mapM fst snd] in E. destruct (number_action ix x0) eqn:E0; cbn [bind] in E; try discriminate.
        destruct (mapM (fun ka => do b <- number_action ix (snd ka); Ok (fst ka, b)) a) eqn:E1; cbn [bind] in E; try discriminate.
        destruct Hx as [Hx|Hx]; [injection Hx as -> ->; eauto|eapply IH; eauto]. }
      rewrite Ea' in Ea''. injection Ea'' as <-. rewrite Hget. specialize (Hrs t).
      specialize (B3 (TM t)). specialize (B2 (TM t)). rewrite R1 in Hrs.
      destruct (aget eqb t a) as [[c|k|]|] eqn:Eta; simpl.
      + destruct (aget eqb (TM t) go) as [c'|] eqn:Ec; [|discriminate]. injection Hrs as ->.
        destruct (B2 c eq_refl) as (C1 & C2 & C3). destruct (Hixe c C3) as [j Hj]. rewrite Hj. simpl. exists c. split; [apply Hix; auto|]. auto.
      + destruct Hrs as (Hrs & _). destruct (aget eqb (TM t) go) eqn:Ec; [discriminate|]. apply B3. reflexivity.
      + destruct Hrs as (_ & _ & Hrs). destruct (aget eqb (TM t) go) eqn:Ec; [discriminate|]. apply B3. reflexivity.
      + destruct Hrs as (Hrs & _). destruct (aget eqb (TM t) go) eqn:Ec; [discriminate|]. apply B3. reflexivity. }
  assert (Hstate : forall g, match state_of p g with
                     | Some i => exists st, nth_error keys i = Some st /\ rep rs sr g st /\ exists it, valid rs sr g it
                     | None => forall it, ~ valid rs sr g it
                     end).
  { intros g. induction g as [|X g IH] using rev_ind.
    - simpl. exists s0. split; [apply Hix; auto|]. split; [auto|]. eexists. constructor.
    - rewrite state_of_snoc. destruct (state_of p g) as [i|].
      + destruct IH as (st & I1 & I2 & I3). specialize (Hnext st i g X I1 I2). destruct (next_state p i X) as [j|].
        * destruct Hnext as (c & C1 & C2 & C3). exists c. split; [auto|]. split; [auto|]. apply wants_valid. auto.
        * intros it Hit. apply Hnext. apply wants_valid. eauto.
      + intros it Hit. assert (Hw : wants rs sr g X) by (apply wants_valid; eauto).
        destruct Hw as (k & q & la & r & H & _). eapply IH; eauto. }
  assert (Hstate' : forall g i, state_of p g = Some i -> exists st, nth_error keys i = Some st /\ rep rs sr g st).
  { intros g i H. specialize (Hstate g). rewrite H in Hstate. destruct Hstate as (st & A & B & _). eauto. }
  assert (Hreach : forall st i, ix st = Some i -> exists g, state_of p g = Some i).
  { intros st i Hi. apply Hix in Hi. destruct (S5 st (Hkin _ _ Hi)) as (g & Hg & (it & Hv) & _). exists g.
    specialize (Hstate g). destruct (state_of p g) as [j|]; [|exfalso; eapply Hstate; eauto].
    destruct Hstate as (st' & A & B & _). rewrite (rep_unique _ _ _ _ _ B Hg) in A. apply Hix in A. apply Hix in Hi. congruence. }
  assert (Hcomp : forall g st k t, rep rs sr g st -> (comp rs sr st k t <-> k <> sr /\ complete rs sr g k t)).
  { intros g st k t [_ Hg]. unfold comp, complete. split; intros (A & r & B & C); (split; [auto|]); exists r; (split; [auto|]); apply Hg; auto. }
  assert (Hmin : forall g st k t, rep rs sr g st -> (mincomp rs sr st k t <-> k <> sr /\ complete rs sr g k t /\ forall k', k' <> sr -> complete rs sr g k' t -> k <= k')).
  { intros g st k t Hg. unfold mincomp. rewrite (Hcomp g st k t Hg). split.
    - intros [[A B] C]. split; [auto|]. split; [auto|]. intros k' D1 D2. apply C. apply (Hcomp g st k' t Hg). auto.
    - intros (A & B & C). split; [auto|]. intros k' D. apply (Hcomp g st k' t Hg) in D as [D1 D2]. auto. }
  assert (Hacc : forall g st, rep rs sr g st -> (acc rs sr st <-> accepting rs sr g)).
  { intros g st [_ Hg]. unfold acc, accepting, complete. split.
    - intros (r & t & A & B). apply Hg in B. pose proof (Hla _ _ B eq_refl) as E. simpl in E. subst t. eauto.
    - intros (r & A & B). exists r, TEoi. split; [auto|]. apply Hg. auto. }
  assert (Hshift : forall st go g t, aget list_eqb st sl = Some go -> rep rs sr g st ->
     match aget eqb t (fst (row_shifts go)) with Some (Shift c) => rep rs sr (g ++ [TM t]) c /\ wants rs sr g (TM t) | Some _ => False | None => ~ wants rs sr g (TM t) end).
  { intros st go g t Hgo Hg. destruct (Hent st go g Hgo Hg) as (B1 & B2 & B3). destruct (row_shifts_spec go B1) as (R1 & _).
    rewrite R1. specialize (B2 (TM t)). specialize (B3 (TM t)). destruct (aget eqb (TM t) go) as [c|]; [|auto].
    destruct (B2 c eq_refl) as (C1 & C2 & _). auto. }
  split; [|split].
  - constructor.
    + reflexivity.
    + intros g. specialize (Hstate g). destruct (state_of p g) as [i|].
      * destruct Hstate as (st & _ & _ & H). split; [auto|eauto].
      * split; [intros [s H]; discriminate|]. intros [it H]. exfalso. eapply Hstate; eauto.
    + intros g g' s s' Hs Hs'. destruct (Hstate' _ _ Hs) as (st & A1 & A2). destruct (Hstate' _ _ Hs') as (st' & B1 & B2). split.
      * intros <-. assert (st = st') by congruence. subst st'. destruct A2 as [_ A2], B2 as [_ B2]. intros it. rewrite <- A2, <- B2. reflexivity.
      * intros H. assert (E : st = st').
        { destruct A2 as [A2 A3], B2 as [B2 B3]. apply sorted_ext; auto. intros x. rewrite A3, B3. auto. }
        subst st'. apply Hix in A1. apply Hix in B1. congruence.
    + intros g s Hs. destruct (Hstate' _ _ Hs) as (st & A1 & A2). destruct (Hslget st (Hkin _ _ A1)) as [go Hgo].
      pose proof (T1' st) as T. rewrite Hgo in T. destruct T as (a & Ha & Hnda & Hrs).
      destruct (Hrow st a Ha) as (i' & a' & Hi' & Ea').
      assert (Hgp : aget eqb s (p_action p) = Some a').
      { unfold p; cbn [p_action]. rewrite (Hact st s); [|apply Hix; auto]. rewrite Ha, Ea'. reflexivity. }
      exists a'. split; [auto|]. intros t.
      destruct (number_row_ok (@eqb term _) (number_action ix) a) as (a'' & Ea'' & _ & Hget).
      { intros t' x Hx. unfold number_row in Ea'. clear - Ea' Hx. revert a' Ea'. induction a as [|[t0 x0] a IH]; [destruct Hx|].
        intros a' E. cbn [mapM fst snd] in E. destruct (number_action ix x0) eqn:E0; cbn [bind] in E; try discriminate.
        destruct (mapM (fun ka => do b <- number_action ix (snd ka); Ok (fst ka, b)) a) eqn:E1; cbn [bind] in E; try discriminate.
        destruct Hx as [Hx|Hx]; [injection Hx as -> ->; eauto|eapply IH; eauto]. }
      rewrite Ea' in Ea''. injection Ea'' as <-.
      pose proof (Hshift st go g t Hgo A2) as Hsh.
      pose proof (Hnext st s g (TM t) A1 A2) as Hnx. unfold next_state in Hnx. rewrite Hgp in Hnx.
      pose proof (state_of_snoc p g (TM t)) as Hsn. rewrite Hs in Hsn. unfold next_state in Hsn. rewrite Hgp in Hsn.
      pose proof (Hget t) as Hg0. specialize (Hrs t).
      destruct (aget eqb t a) as [[c|k|]|] eqn:Eta.
      * simpl in Hg0. destruct (ix c) as [j|]; simpl in Hg0; rewrite Hg0 in Hsn, Hnx; rewrite Hg0.
        -- destruct Hnx as (c' & _ & _ & Hw). split; auto.
        -- exfalso. rewrite Hrs in Hsh. tauto.
      * simpl in Hg0. rewrite Hg0 in Hnx. rewrite Hg0. destruct Hrs as (H1 & H2 & H3). simpl. split; [auto|].
        rewrite (Hacc g st A2) in H3. split; [auto|]. apply (Hmin g st k t A2); auto.
      * simpl in Hg0. rewrite Hg0 in Hnx. rewrite Hg0. destruct Hrs as (H1 & H2 & H3). simpl. split; [auto|]. split; [auto|]. apply (Hacc g st A2); auto.
      * simpl in Hg0. rewrite Hg0 in Hnx. rewrite Hg0. destruct Hrs as (H1 & H2 & H3). simpl. split; [auto|].
        rewrite (Hacc g st A2) in H3. split; [auto|]. intros k Hk Hk'. apply (H2 k). apply (Hcomp g st k t A2); auto.
    + intros g s Hs. destruct (Hstate' _ _ Hs) as (st & A1 & A2).
      assert (Hwe : forall k, err_item rs st k <-> wants_error rs sr g k).
      { intros k. destruct A2 as [_ A2]. split; intros (q & la & r & B1 & B2 & B3); exists q, la, r; (split; [apply A2; auto|auto]). }
      assert (Hin : In (st, s) (combine keys (seq 0 (length keys)))) by (apply In_enum'; auto).
      specialize (Herr st s Hin). unfold p; cbn [p_errors]. destruct (aget eqb s errs) as [ks|].
      * destruct Herr as [C1 C2]. split; [auto|]. intros k. rewrite C2. auto.
      * intros k Hk. apply (Herr k). apply Hwe. auto.
    + intros s row Hs. destruct (Hactk s row Hs) as [st Hst]. eauto.
    + intros s row Hs. destruct (Hgtk s row Hs) as [st Hst]. eauto.
  - intros Hd. apply dangling_bad in Hd as (g & it & H1 & H2).
    specialize (Hstate g). destruct (state_of p g) as [i|]; [|eapply Hstate; eauto].
    destruct Hstate as (st & A1 & A2 & _). destruct (S5 st (Hkin _ _ A1)) as (g0 & B1 & _ & B3).
    apply (B3 it); [|auto]. destruct A2 as [_ A2], B1 as [_ B1]. apply B1, A2. auto.
  - simpl in T5. assert (Hcs : forall x t, In (x, t) cs <-> conflict_at rs sr x t); [intros x t; rewrite T7; split|].
    + intros (st & go & Hin & (k & Hk & Hx)).
      apply (Permutation_in _ (Permutation_sym (He3 sl))) in Hin.
      assert (Hgo : aget list_eqb st sl = Some go) by (apply (aget_NoDup list_eqb list_eqb_eq); auto).
      assert (Hst : In st (map fst sl)) by (apply in_map_iff; exists (st, go); auto).
      destruct (S5 st Hst) as (g & Hg & _). exists g, k.
      apply (Hcomp g st k t Hg) in Hk as [Hk1 Hk2]. split; [auto|]. split; [auto|].
      pose proof (Hshift st go g t Hgo Hg) as Hsh.
      destruct Hx as [(c & Hc & ->)|(Hc & k0 & Hk0 & Hne & ->)]; rewrite Hc in Hsh.
      * destruct Hsh as [H1 H2]. split; [auto|]. split; [auto|]. split; [exact Hg|exact H1].
      * apply (Hmin g st k0 t Hg) in Hk0 as (C1 & C2 & C3). split; [auto|]. split; [auto|]. split; [exact Hg|]. auto.
    + intros (g & k & Hk & Hc & Hx).
      assert (Hst : exists st i, state_of p g = Some i /\ nth_error keys i = Some st /\ rep rs sr g st).
      { specialize (Hstate g). destruct (state_of p g) as [i|].
        - destruct Hstate as (st & A & B & _). exists st, i. auto.
        - destruct Hc as (r & _ & Hv). exfalso. eapply Hstate; eauto. }
      destruct Hst as (st & i & _ & Hi & Hg). destruct (Hslget st (Hkin _ _ Hi)) as [go Hgo].
      exists st, go. split.
      { apply (Permutation_in _ (He3 sl)). apply (aget_In list_eqb list_eqb_eq). auto. }
      pose proof (Hshift st go g t Hgo Hg) as Hsh. exists k. split; [apply (Hcomp g st k t Hg); auto|].
      destruct x as [st' sh k'|st' k0 k'].
      * destruct Hx as (-> & Hw & Hi1 & Hi2). left. destruct (aget eqb t (fst (row_shifts go))) as [[c|k1|]|]; try tauto.
        exists c. split; [auto|]. f_equal; [eapply rep_unique; [exact Hi1|exact Hg]|eapply rep_unique; [exact Hi2|apply Hsh]].
      * destruct Hx as (-> & Hw & Hi1 & Hne & C1 & C2 & C3). right. destruct (aget eqb t (fst (row_shifts go))) as [[c|k1|]|]; try tauto.
        split; [auto|]. exists k0. split; [apply (Hmin g st k0 t Hg); auto|]. split; [auto|]. f_equal. eapply rep_unique; [exact Hi1|exact Hg].
    + assert (Hw : forall x, In x (tb_warn tb) <-> conflict rs sr x).
      { intros x. rewrite T5, in_map_iff. split.
        - intros ([x' t] & E0 & H). simpl in E0. subst x'. exists t. apply Hcs. auto.
        - intros (t & H). exists (x, t). split; [auto|]. apply Hcs. auto. }
      split; [exact Hw|]. split; [|exists cs; auto].
      assert (Hst : forall g it, valid rs sr g it -> exists st, rep rs sr g st).
      { intros g it Hv. specialize (Hstate g). destruct (state_of p g) as [i|]; [|exfalso; eapply Hstate; eauto].
        destruct Hstate as (st & _ & B & _). eauto. }
      split.
      * intros E0 g k t Hk Hc. assert (Hno : forall x, ~ conflict rs sr x).
        { intros x Hx. apply Hw in Hx. rewrite E0 in Hx. destruct Hx. }
        assert (Hex : exists st, rep rs sr g st) by (destruct Hc as (r & _ & Hv); eauto). destruct Hex as [st Hg].
        assert (Hnw : ~ wants rs sr g (TM t)).
        { intros Hw'. pose proof Hw' as Hw2. apply wants_valid in Hw2 as [it Hit]. destruct (Hst _ _ Hit) as [sh Hsh].
          apply (Hno (WShiftReduce st sh k)). exists t, g, k. split; [auto|]. split; [auto|]. split; [auto|]. split; [auto|]. split; auto. }
        split; [auto|].
        assert (Hdec : forall k, (k <> sr /\ complete rs sr g k t) \/ ~ (k <> sr /\ complete rs sr g k t)).
        { intros k0. destruct (Nat.eq_dec k0 sr) as [->|Hn]; [right; tauto|].
          destruct (nth_error rs k0) as [r|] eqn:Er.
          - destruct (mem (mk_item k0 (length (r_rhs r)) t) st) eqn:Em.
            + apply mem_In in Em. left. split; [auto|]. exists r. split; [auto|]. apply Hg. auto.
            + right. intros [_ (r' & Hr' & Hv)]. assert (r' = r) by congruence. subst r'. apply Hg in Hv. apply mem_In in Hv. congruence.
          - right. intros [_ (r' & Hr' & _)]. congruence. }
        destruct (least (fun k => k <> sr /\ complete rs sr g k t) k Hdec (conj Hk Hc)) as (k0 & [A1 A2] & A3).
        assert (Hall : forall k1, k1 <> sr -> complete rs sr g k1 t -> k1 = k0).
        { intros k1 B1 B2. destruct (Nat.eq_dec k1 k0) as [|Hne]; auto. exfalso.
          apply (Hno (WReduceReduce st k0 k1)). exists t, g, k1. split; [auto|]. split; [auto|].
          split; [auto|]. split; [auto|]. split; [exact Hg|]. split; [auto|]. split; [auto|]. split; [auto|]. intros k2 C1 C2. apply A3. auto. }
        intros k' B1 B2. rewrite (Hall k Hk Hc). auto.
      * intros Hcf. destruct (tb_warn tb) as [|x w] eqn:Ew; [auto|]. exfalso.
        assert (Hx : conflict rs sr x) by (apply Hw; left; auto).
        destruct Hx as (t & g & k & Hk & Hc & Hx). destruct (Hcf g k t Hk Hc) as [A1 A2].
        destruct x as [st sh k'|st k0 k']; [tauto|]. destruct Hx as (_ & _ & _ & Hne & B1 & B2 & _). apply Hne. auto.
Qed.
