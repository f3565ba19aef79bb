(** * calc_closure, calc_goto and calc_all_goto compute the sets of valid LR(1) items *)
From Coq Require Import List Arith Lia Bool Permutation.
From Verif Require Import Lib Grammar LrModel LrSets.
Import ListNotations.

Lemma In_enum {A} (l : list A) k (x : A) : In (k, x) (combine (seq 0 (length l)) l) <-> nth_error l k = Some x.
Proof.
  assert (G : forall (l : list A) b, In (k, x) (combine (seq b (length l)) l) <-> b <= k /\ nth_error l (k - b) = Some x).
  { clear l. induction l as [|a l IH]; simpl; intros b.
    - split; [tauto|]. intros [_ H]. destruct (k - b); discriminate.
    - rewrite IH. split.
      + intros [H|[H1 H2]].
        * injection H as -> ->. split; [lia|]. rewrite Nat.sub_diag. reflexivity.
        * split; [lia|]. replace (k - b) with (S (k - S b)) by lia. exact H2.
      + intros [H1 H2]. destruct (Nat.eq_dec b k) as [->|Hn].
        * rewrite Nat.sub_diag in H2. injection H2 as ->. left. reflexivity.
        * right. split; [lia|]. replace (k - b) with (S (k - S b)) in H2 by lia. exact H2. }
  rewrite G, Nat.sub_0_r. split; [tauto|]. intros H. split; [lia|auto].
Qed.

(** ** rule_map *)
Lemma rule_map_fold (l : list (nat * rule)) : forall (m : list (nat * list nat)) (n : nat),
  (forall k, In k (aget_or eqb n [] (fold_left (fun m ir => aupd eqb (r_lhs (snd ir)) [] (ins (fst ir)) m) l m)) <->
     In k (aget_or eqb n [] m) \/ exists r, In (k, r) l /\ r_lhs r = n) /\
  (aget eqb n (fold_left (fun m ir => aupd eqb (r_lhs (snd ir)) [] (ins (fst ir)) m) l m) = None <->
     aget eqb n m = None /\ forall k r, In (k, r) l -> r_lhs r <> n).
Proof.
  induction l as [|[i r] l IH]; simpl; intros m n.
  - split; [intros k; split; [auto|]; intros [H|(r & [] & _)]; auto|]. split; [intros H; split; [auto|intros k r []]|tauto].
  - destruct (IH (aupd eqb (r_lhs r) [] (ins i) m) n) as [A B].
    assert (E : aget eqb n (aupd eqb (r_lhs r) [] (ins i) m) =
                if eqb n (r_lhs r) then Some (ins i (aget_or eqb n [] m)) else aget eqb n m).
    { rewrite (aget_aupd eqb eqb_eq). unfold aget_or. destruct (eqb n (r_lhs r)) eqn:E; auto.
      apply eqb_eq in E. subst. destruct (aget eqb (r_lhs r) m); reflexivity. }
    split.
    + intros k. rewrite A. unfold aget_or at 1. rewrite E. destruct (eqb n (r_lhs r)) eqn:E'.
      * apply eqb_eq in E'. rewrite In_ins. split.
        -- intros [[->|H]|(r' & H1 & H2)]; eauto.
        -- intros [H|(r' & [H1|H1] & H2)]; [auto| |eauto]. injection H1 as -> ->. auto.
      * apply eqb_neq in E'. fold (aget_or eqb n [] m). split.
        -- intros [H|(r' & H1 & H2)]; eauto.
        -- intros [H|(r' & [H1|H1] & H2)]; [auto| |eauto]. injection H1 as -> ->. congruence.
    + rewrite B, E. destruct (eqb n (r_lhs r)) eqn:E'.
      * apply eqb_eq in E'. split; [intros [H _]; discriminate|]. intros [_ H]. exfalso. eapply H; eauto.
      * apply eqb_neq in E'. split.
        -- intros [H1 H2]. split; [auto|]. intros k r' [H|H]; [|eauto]. injection H as -> ->. auto.
        -- intros [H1 H2]. split; [auto|]. intros k r' H. eapply H2; eauto.
Qed.
Lemma rule_map_Some rs n ks : aget eqb n (rule_map rs) = Some ks ->
  forall k, In k ks <-> exists r, nth_error rs k = Some r /\ r_lhs r = n.
Proof.
  intros H k. destruct (rule_map_fold (combine (seq 0 (length rs)) rs) [] n) as [A _].
  specialize (A k). fold (rule_map rs) in A. unfold aget_or in A. rewrite H in A. rewrite A. simpl.
  split; [intros [[]|(r & H1 & H2)]|intros (r & H1 & H2); right]; exists r; split; auto; apply In_enum; auto.
Qed.
Lemma rule_map_None rs n : aget eqb n (rule_map rs) = None <-> forall r, In r rs -> r_lhs r <> n.
Proof.
  destruct (rule_map_fold (combine (seq 0 (length rs)) rs) [] n) as [_ B]. fold (rule_map rs) in B. rewrite B. split.
  - intros [_ H] r Hr. apply In_nth_error in Hr as [k Hk]. apply In_enum in Hk. eauto.
  - intros H. split; [reflexivity|]. intros k r Hk. apply H. apply In_enum in Hk. eapply nth_error_In; eauto.
Qed.

Section Items.
  Variables (rs : list rule) (nl : list sym) (fm : list (sym * list term)).
  Hypothesis Hnl : null_exact rs nl.
  Hypothesis Hfm : first_exact rs fm.

  (** one closure step *)
  Definition cstep (it x : item) : Prop :=
    exists r A r' k' t, nth_error rs (i_rule it) = Some r /\ nth_error (r_rhs r) (i_pos it) = Some (NT A) /\
      nth_error rs k' = Some r' /\ r_lhs r' = A /\ firsts rs (skipn (S (i_pos it)) (r_rhs r) ++ [TM (i_la it)]) t /\
      x = mk_item k' 0 t.

  (** the item asks for a nonterminal without rules, in a way that makes the code look it up *)
  Definition bad (it : item) : Prop :=
    exists r A t, nth_error rs (i_rule it) = Some r /\ nth_error (r_rhs r) (i_pos it) = Some (NT A) /\
      (forall r', In r' rs -> r_lhs r' <> A) /\ firsts rs (skipn (S (i_pos it)) (r_rhs r) ++ [TM (i_la it)]) t.

  Inductive clos (K : item -> Prop) : item -> Prop :=
  | clos_k it : K it -> clos K it
  | clos_c it x : clos K it -> cstep it x -> clos K x.

  Definition wf_item (it : item) : Prop :=
    exists r, nth_error rs (i_rule it) = Some r /\ i_pos it <= length (r_rhs r) /\ (i_la it = TEoi \/ occurs rs (i_la it)).

  Lemma closure_item_spec it u : wf_item it ->
    match closure_item rs nl fm (rule_map rs) u it with
    | Ok u' => (forall x, In x u' <-> In x u \/ cstep it x) /\ ~ bad it
    | Panic => bad it
    | OutOfFuel => False
    end.
  Proof.
    intros (r & Hr & _). unfold closure_item. rewrite Hr. cbn [of_opt bind].
    destruct (nth_error (r_rhs r) (i_pos it)) as [[n|t]|] eqn:Ex.
    - set (fol := skipn (S (i_pos it)) (r_rhs r) ++ [TM (i_la it)]).
      set (las := get_first nl fm fol []).
      assert (Hlas : forall t, In t las <-> firsts rs fol t).
      { intros t. unfold las. rewrite (get_first_spec rs nl fm fol Hnl Hfm), firsts_firstl. simpl. tauto. }
      destruct (aget eqb n (rule_map rs)) as [ks|] eqn:Ek.
      + assert (G : forall l u, foldM (fun u la => do ks <- of_opt (Some ks); Ok (ins_all (map (fun k => mk_item k 0 la) ks) u)) l u =
                     Ok (fold_left (fun u la => ins_all (map (fun k => mk_item k 0 la) ks) u) l u)).
        { induction l as [|la l IH]; simpl; intros u0; [reflexivity|]. apply IH. }
        rewrite G.
        assert (G2 : forall l u x, In x (fold_left (fun u la => ins_all (map (fun k => mk_item k 0 la) ks) u) l u) <->
                      In x u \/ exists la k, In la l /\ In k ks /\ x = mk_item k 0 la).
        { induction l as [|la l IH]; simpl; intros u0 x; [split; [auto|intros [H|(la & k & [] & _)]; auto]|].
          rewrite IH, In_ins_all, in_map_iff. split.
          - intros [[(k & <- & H)|H]|(la' & k & H1 & H2 & H3)]; [right; exists la, k; auto|auto|right; exists la', k; auto].
          - intros [H|(la' & k & [<-|H1] & H2 & H3)]; [auto|left; left; exists k; auto|right; exists la', k; auto]. }
        split.
        * intros x. rewrite G2. split.
          -- intros [H|(la & k & H1 & H2 & ->)]; [auto|]. right.
             apply (rule_map_Some _ _ _ Ek) in H2 as (r' & H3 & H4). apply Hlas in H1.
             exists r, n, r', k, la. auto 10.
          -- intros [H|(r0 & A & r' & k' & t & E1 & E2 & E3 & E4 & E5 & ->)]; [auto|]. right.
             rewrite Hr in E1. injection E1 as <-. rewrite Ex in E2. injection E2 as <-.
             exists t, k'. split; [apply Hlas; exact E5|]. split; [|reflexivity].
             apply (rule_map_Some _ _ _ Ek). eauto.
        * intros (r0 & A & t & E1 & E2 & E3 & E4).
          rewrite Hr in E1. injection E1 as <-. rewrite Ex in E2. injection E2 as <-.
          apply rule_map_None in E3. congruence.
      + destruct las as [|la las'] eqn:El.
        * simpl. split.
          -- intros x. split; [auto|]. intros [H|(r0 & A & r' & k' & t & E1 & E2 & E3 & E4 & E5 & ->)]; [auto|].
             rewrite Hr in E1. injection E1 as <-. apply Hlas in E5. destruct E5.
          -- intros (r0 & A & t & E1 & E2 & E3 & E4). rewrite Hr in E1. injection E1 as <-. apply Hlas in E4. destruct E4.
        * simpl. exists r, n, la. split; [auto|]. split; [auto|]. split; [apply rule_map_None; auto|].
          apply Hlas. left; auto.
    - split; [|intros (r0 & A & t' & E1 & E2 & _); congruence].
      intros x. split; [auto|]. intros [H|(r0 & A & r' & k' & t' & E1 & E2 & _)]; [auto|congruence].
    - split; [|intros (r0 & A & t' & E1 & E2 & _); congruence].
      intros x. split; [auto|]. intros [H|(r0 & A & r' & k' & t' & E1 & E2 & _)]; [auto|congruence].
  Qed.

  Lemma closure_items_spec l : forall u, Forall wf_item l ->
    match foldM (closure_item rs nl fm (rule_map rs)) l u with
    | Ok u' => (forall x, In x u' <-> In x u \/ exists it, In it l /\ cstep it x) /\ forall it, In it l -> ~ bad it
    | Panic => exists it, In it l /\ bad it
    | OutOfFuel => False
    end.
  Proof.
    induction l as [|it l IH]; intros u Hw.
    - simpl. split; [|intros it []]. intros x. split; [auto|]. intros [H|(it & [] & _)]; auto.
    - apply Forall_cons_iff in Hw as [Hw1 Hw2]. pose proof (closure_item_spec it u Hw1) as H1. cbn [foldM].
      destruct (closure_item rs nl fm (rule_map rs) u it) as [u1| |]; cbn [bind].
      + destruct H1 as [H1 H1']. specialize (IH u1 Hw2).
        destruct (foldM (closure_item rs nl fm (rule_map rs)) l u1) as [u2| |].
        * destruct IH as [IH IH']. split.
          -- intros x. rewrite IH, H1. split.
             ++ intros [[H|H]|(i & Hi & H)]; [auto|right; exists it; simpl; auto|right; exists i; simpl; auto].
             ++ intros [H|(i & [<-|Hi] & H)]; [auto|auto|right; exists i; auto].
          -- intros i [<-|Hi]; auto.
        * destruct IH as (i & Hi & H). exists i. simpl; auto.
        * exact IH.
      + exists it. simpl; auto.
      + exact H1.
  Qed.

  Definition all_items : list item :=
    flat_map (fun kr => map (fun pt => mk_item (fst kr) (fst pt) (snd pt))
                         (list_prod (seq 0 (S (length (r_rhs (snd kr))))) (TEoi :: terms_of rs)))
      (combine (seq 0 (length rs)) rs).
  Lemma all_items_spec it : In it all_items <-> wf_item it.
  Proof.
    unfold all_items, wf_item. rewrite in_flat_map. split.
    - intros ([k r] & Hk & H). apply In_enum in Hk. apply in_map_iff in H as ([p t] & <- & H).
      apply in_prod_iff in H as [H1 H2]. exists r. cbn [fst snd] in *. split; [auto|]. apply in_seq in H1. cbn [i_rule i_pos i_la].
      split; [lia|]. destruct H2 as [<-|H2]; [auto|right; apply In_terms_of; auto].
    - intros (r & Hr & Hp & Ht). exists (i_rule it, r). split; [apply In_enum; auto|]. apply in_map_iff.
      exists (i_pos it, i_la it). simpl fst; simpl snd. split; [destruct it; reflexivity|]. apply in_prod.
      + apply in_seq. lia.
      + destruct Ht as [->|Ht]; [left; auto|right; apply In_terms_of; auto].
  Qed.

  Lemma skipn_In {A} n (l : list A) x : In x (skipn n l) -> In x l.
  Proof. revert l; induction n; destruct l; simpl; auto. Qed.

  Lemma cstep_wf it x : wf_item it -> cstep it x -> wf_item x.
  Proof.
    intros (r0 & Hr0 & _ & Hla) (r & A & r' & k' & t & E1 & E2 & E3 & E4 & E5 & ->).
    exists r'. simpl. split; [auto|]. split; [lia|]. apply firsts_firstl in E5. apply firstl_occurs in E5 as [H|H]; [|auto].
    apply in_app_iff in H as [H|[H|[]]].
    - right. exists r. split; [eapply nth_error_In; eauto|]. eapply skipn_In; eauto.
    - injection H as <-. auto.
  Qed.
  Lemma clos_wf (K : item -> Prop) : (forall it, K it -> wf_item it) -> forall it, clos K it -> wf_item it.
  Proof. intros H. induction 1; auto. eapply cstep_wf; eauto. Qed.
  Lemma clos_mono (K K' : item -> Prop) : (forall it, K it -> K' it) -> forall it, clos K it -> clos K' it.
  Proof. intros H. induction 1; [constructor; auto|eapply clos_c; eauto]. Qed.

  Definition closure_result (K : item -> Prop) (r : res state) : Prop :=
    match r with
    | Ok c => sorted c /\ (forall it, In it c <-> clos K it) /\ (forall it, clos K it -> ~ bad it)
    | Panic => exists it, clos K it /\ bad it
    | OutOfFuel => False
    end.

  Lemma calc_closure_ok st : sorted st -> Forall wf_item st ->
    exists F r, closure_result (fun it => In it st) r /\ forall fuel, F <= fuel -> calc_closure rs nl fm fuel st = r.
  Proof.
    intros Hs Hw.
    set (I := fun c : list item => sorted c /\ Forall wf_item c /\ incl st c /\ (forall it, In it c -> clos (fun it => In it st) it)).
    set (m := fun c : list item => length (filter (fun it => negb (mem it c)) all_items)).
    destruct (loop_term (closure_step rs nl fm (rule_map rs)) I (fun a b => m a < m b)
                (closure_result (fun it => In it st))) with (s := st) as (F & r & Hr & HF).
    - apply (Wf_nat.well_founded_lt_compat _ m). auto.
    - intros c (Hc1 & Hc2 & Hc3 & Hc4). unfold closure_step.
      pose proof (closure_items_spec c [] Hc2) as H.
      destruct (foldM (closure_item rs nl fm (rule_map rs)) c []) as [u| |].
      + destruct H as [Hu Hb].
        assert (Hu' : forall x, In x u <-> exists it, In it c /\ cstep it x) by (intros x; rewrite Hu; simpl; tauto).
        destruct (existsb (fun i => negb (mem i c)) u) eqn:E.
        * split.
          -- split; [apply sorted_ins_all; auto|]. split; [|split].
             ++ apply Forall_forall. intros x Hx. apply In_ins_all in Hx as [Hx|Hx]; [|eapply Forall_forall; eauto].
                apply Hu' in Hx as (it & Hi & Hx). eapply cstep_wf; [|exact Hx]. eapply Forall_forall; eauto.
             ++ intros x Hx. apply In_ins_all. auto.
             ++ intros x Hx. apply In_ins_all in Hx as [Hx|Hx]; [|auto]. apply Hu' in Hx as (it & Hi & Hx).
                eapply clos_c; [|exact Hx]. auto.
          -- apply existsb_exists in E as (x & Hx & E). apply negb_true_iff, mem_nIn in E. unfold m. apply filter_lt.
             ++ intros y _ Hy. apply negb_true_iff, mem_nIn in Hy. apply negb_true_iff, mem_nIn. intros Hy'. apply Hy, In_ins_all. auto.
             ++ exists x. split; [|split].
                ** apply all_items_spec. apply Hu' in Hx as (it & Hi & Hx). eapply cstep_wf; [|exact Hx]. eapply Forall_forall; eauto.
                ** apply negb_true_iff, mem_nIn. auto.
                ** apply negb_false_iff, mem_In, In_ins_all. auto.
        * split; [discriminate|]. simpl.
          assert (Hin : forall x, In x u -> In x c).
          { intros x Hx. destruct (mem x c) eqn:E'; [apply mem_In; auto|].
            assert (existsb (fun i => negb (mem i c)) u = true) by (apply existsb_exists; exists x; rewrite E'; auto). congruence. }
          assert (Hcl : forall it, clos (fun it => In it st) it -> In it c).
          { induction 1 as [it Hk|it x H IH Hx]; [auto|]. apply Hin, Hu'. eauto. }
          split; [apply sorted_ins_all; auto|]. split.
          -- intros it. rewrite In_ins_all. split; [intros [Hx|Hx]; [apply Hc4; auto|auto]|auto].
          -- intros it Hit. apply Hb. auto.
      + split; [discriminate|]. destruct H as (it & Hi & H). exists it. auto.
      + destruct H.
    - split; [auto|]. split; [auto|]. split; [apply incl_refl|]. intros it Hi. constructor; auto.
    - exists F, r. auto.
  Qed.

  (** ** calc_goto *)
  (** the items of [st] that ask for [X], moved over it *)
  Definition moved (st : item -> Prop) (X : sym) (it : item) : Prop :=
    exists k p la r, st (mk_item k p la) /\ nth_error rs k = Some r /\ nth_error (r_rhs r) p = Some X /\ it = mk_item k (S p) la.

  Lemma goto_items_spec l : forall g, Forall wf_item l -> NoDup (map fst g) -> Forall (fun xs => sorted (snd xs)) g ->
    (forall X s, aget eqb X g = Some s -> exists it, In it s) ->
    exists g', foldM (goto_item rs) l g = Ok g' /\ NoDup (map fst g') /\ Forall (fun xs => sorted (snd xs)) g' /\
      (forall X s, aget eqb X g' = Some s -> exists it, In it s) /\
      forall X it, In it (aget_or eqb X [] g') <-> In it (aget_or eqb X [] g) \/ moved (fun i => In i l) X it.
  Proof.
    induction l as [|it l IH]; intros g Hw Hg1 Hg2 Hg3.
    - exists g. simpl. split; [auto|]. split; [auto|]. split; [auto|]. split; [auto|].
      intros X x. split; [auto|]. intros [H|(k & p & la & r & [] & _)]; auto.
    - apply Forall_cons_iff in Hw as [(r & Hr & Hp & Hla) Hw2]. cbn [foldM].
      assert (Ei : goto_item rs g it = match nth_error (r_rhs r) (i_pos it) with
                | Some x => Ok (aupd eqb x [] (ins (mk_item (i_rule it) (S (i_pos it)) (i_la it))) g)
                | None => Ok g end) by (unfold goto_item; rewrite Hr; reflexivity).
      rewrite Ei. clear Ei.
      destruct (nth_error (r_rhs r) (i_pos it)) as [Y|] eqn:Ey.
      + cbn [bind]. set (x := mk_item (i_rule it) (S (i_pos it)) (i_la it)). set (g1 := aupd eqb Y [] (ins x) g).
        assert (E : forall X, aget eqb X g1 = if eqb X Y then Some (ins x (aget_or eqb X [] g)) else aget eqb X g).
        { intros X. unfold g1, aget_or. rewrite (aget_aupd eqb eqb_eq). destruct (eqb X Y) eqn:E; auto.
          apply eqb_eq in E. subst. destruct (aget eqb Y g); auto. }
        destruct (IH g1 Hw2) as (g' & A & B & C & D & F).
        * apply (aupd_NoDup eqb eqb_eq). auto.
        * apply Forall_forall. intros [X s] HX.
          assert (HE : aget eqb X g1 = Some s) by (apply (aget_NoDup eqb eqb_eq); auto; apply (aupd_NoDup eqb eqb_eq); auto).
          rewrite E in HE. simpl. destruct (eqb X Y).
          -- injection HE as <-. apply sorted_ins. unfold aget_or. destruct (aget eqb X g) eqn:E'; [|apply sorted_nil].
             apply (aget_In eqb eqb_eq) in E'. rewrite Forall_forall in Hg2. apply (Hg2 _ E').
          -- apply (aget_In eqb eqb_eq) in HE. rewrite Forall_forall in Hg2. apply (Hg2 _ HE).
        * intros X s HX. rewrite E in HX. destruct (eqb X Y); [|eauto]. injection HX as <-. exists x. apply In_ins. auto.
        * exists g'. split; [auto|]. split; [auto|]. split; [auto|]. split; [auto|]. intros X i. rewrite F.
          unfold aget_or at 1. rewrite E. destruct (eqb X Y) eqn:E'.
          -- apply eqb_eq in E'. subst Y. rewrite In_ins. split.
             ++ intros [[->|H]|(k & p & la & r' & H1 & H2)]; [|auto|].
                ** right. exists (i_rule it), (i_pos it), (i_la it), r. split; [left; destruct it; auto|]. auto.
                ** right. exists k, p, la, r'. split; [right; apply H1|apply H2].
             ++ intros [H|(k & p & la & r' & [H1|H1] & H2 & H3 & H4)]; [auto| |].
                ** subst it. left; left. exact H4.
                ** right. exists k, p, la, r'. auto.
          -- apply eqb_neq in E'. fold (aget_or eqb X [] g). split.
             ++ intros [H|(k & p & la & r' & H1 & H2)]; [auto|]. right. exists k, p, la, r'. split; [right; apply H1|apply H2].
             ++ intros [H|(k & p & la & r' & [H1|H1] & H2 & H3 & H4)]; [auto| |].
                ** subst it. simpl in *. congruence.
                ** right. exists k, p, la, r'. auto.
      + cbn [bind]. destruct (IH g Hw2 Hg1 Hg2 Hg3) as (g' & A & B & C & D & F). exists g'. split; [auto|]. split; [auto|]. split; [auto|]. split; [auto|].
        intros X i. rewrite F. split.
        * intros [H|(k & p & la & r' & H1 & H2)]; [auto|]. right. exists k, p, la, r'. split; [right; apply H1|apply H2].
        * intros [H|(k & p & la & r' & [H1|H1] & H2 & H3 & H4)]; [auto| |].
          -- subst it. simpl in *. congruence.
          -- right. exists k, p, la, r'. auto.
  Qed.

  Lemma moved_wf (st : item -> Prop) X it : (forall i, st i -> wf_item i) -> moved st X it -> wf_item it.
  Proof.
    intros H (k & p & la & r & H1 & H2 & H3 & ->). destruct (H _ H1) as (r0 & E1 & E2 & E3). simpl in *.
    exists r0. simpl. split; [auto|]. split; [|auto]. rewrite H2 in E1. injection E1 as <-.
    apply nth_error_Some_lt in H3. lia.
  Qed.

  Definition goto_result (st : state) (r : res (list (sym * state))) : Prop :=
    match r with
    | Ok g => NoDup (map fst g) /\
        (forall X c, In (X, c) g -> (exists it, moved (fun i => In i st) X it) /\ sorted c /\
            (forall it, In it c <-> clos (moved (fun i => In i st) X) it) /\
            (forall it, clos (moved (fun i => In i st) X) it -> ~ bad it)) /\
        (forall X it, moved (fun i => In i st) X it -> exists c, In (X, c) g)
    | Panic => exists X it, clos (moved (fun i => In i st) X) it /\ bad it
    | OutOfFuel => False
    end.

  Lemma calc_goto_ok st : Forall wf_item st ->
    exists F r, goto_result st r /\ forall fuel, F <= fuel -> calc_goto rs nl fm fuel st = r.
  Proof.
    intros Hw.
    destruct (goto_items_spec st [] Hw) as (g & Eg & Hg1 & Hg2 & Hg3 & Hg4); [constructor|constructor|intros X s H; discriminate H|].
    assert (Hg5 : forall X it, In it (aget_or eqb X [] g) <-> moved (fun i => In i st) X it).
    { intros X it. rewrite Hg4. simpl. tauto. }
    assert (Hget : forall X s, In (X, s) g -> aget_or eqb X [] g = s).
    { intros X s H. unfold aget_or. rewrite (aget_NoDup eqb eqb_eq X s g); auto. }
    assert (G : forall l, incl l g -> exists F r, (forall fuel, F <= fuel -> mapM (fun xs => do c <- calc_closure rs nl fm fuel (snd xs); Ok (fst xs, c)) l = r) /\
                match r with
                | Ok g' => map fst g' = map fst l /\ Forall2 (fun xs xc => closure_result (fun it => In it (snd xs)) (Ok (snd xc)) /\ fst xs = fst xc) l g'
                | Panic => exists xs it, In xs l /\ clos (fun it => In it (snd xs)) it /\ bad it
                | OutOfFuel => False
                end).
    { induction l as [|[X s] l IH]; intros Hl.
      - exists 0, (Ok []). split; [reflexivity|]. simpl. split; [auto|constructor].
      - destruct IH as (F2 & r2 & HF2 & Hr2); [intros x Hx; apply Hl; right; auto|].
        assert (HX : In (X, s) g) by (apply Hl; left; auto).
        assert (Hs : sorted s) by (rewrite Forall_forall in Hg2; apply (Hg2 _ HX)).
        assert (Hsw : Forall wf_item s).
        { apply Forall_forall. intros it Hit. rewrite <- (Hget _ _ HX) in Hit. apply Hg5 in Hit.
          eapply moved_wf; [|exact Hit]. intros i Hi. eapply Forall_forall; eauto. }
        destruct (calc_closure_ok s Hs Hsw) as (F1 & r1 & Hr1 & HF1).
        destruct r1 as [c| |].
        + destruct r2 as [g'| |].
          * exists (F1 + F2), (Ok ((X, c) :: g')). split.
            -- intros fuel Hf. cbn [mapM]. rewrite HF1 by lia. cbn [fst snd bind]. rewrite HF2 by lia. reflexivity.
            -- destruct Hr2 as [E2 Hr2]. split; [simpl; congruence|]. constructor; [split; auto|auto].
          * exists (F1 + F2), Panic. split.
            -- intros fuel Hf. cbn [mapM]. rewrite HF1 by lia. cbn [fst snd bind]. rewrite HF2 by lia. reflexivity.
            -- destruct Hr2 as (xs & it & H1 & H2). exists xs, it. split; [right; auto|auto].
          * destruct Hr2.
        + exists F1, Panic. split.
          -- intros fuel Hf. cbn [mapM]. rewrite HF1 by lia. reflexivity.
          -- destruct Hr1 as (it & H1 & H2). exists (X, s), it. split; [left; auto|auto].
        + destruct Hr1. }
    destruct (G g (incl_refl _)) as (F & r & HF & Hr). exists F, r. split.
    - destruct r as [g'| |].
      + destruct Hr as [E Hr]. simpl. split; [rewrite E; auto|]. split.
        * intros X c HX. destruct (Forall2_In_r _ _ _ _ Hr HX) as ([X' s] & Hs & (Hc1 & Hc2 & Hc3) & Ef). simpl in *. subst X'.
          assert (Eq : forall it, In it s <-> moved (fun i => In i st) X it) by (intros it; rewrite <- (Hget _ _ Hs); apply Hg5).
          split; [|split; [auto|split]].
          -- destruct (Hg3 X s) as [it Hit]; [apply (aget_NoDup eqb eqb_eq); auto|]. exists it. apply Eq; auto.
          -- intros it. rewrite Hc2. split; apply clos_mono; intros i; apply Eq.
          -- intros it Hit. apply Hc3. eapply clos_mono; [|exact Hit]. intros i; apply Eq.
        * intros X it Hit. apply Hg5 in Hit. unfold aget_or in Hit. destruct (aget eqb X g) as [s|] eqn:E'; [|destruct Hit].
          apply (aget_In eqb eqb_eq) in E'.
          destruct (Forall2_In_l _ _ _ _ Hr E') as ([X' c] & Hc & _ & Ef). simpl in Ef. subst X'. eauto.
      + simpl. destruct Hr as ([X s] & it & H1 & H2 & H3). exists X, it. split; [|auto].
        eapply clos_mono; [|exact H2]. simpl. intros i Hi. rewrite <- (Hget _ _ H1) in Hi. apply Hg5; auto.
      + destruct Hr.
    - intros fuel Hf. unfold calc_goto. rewrite Eg. cbn [bind]. apply HF. auto.
  Qed.
End Items.
