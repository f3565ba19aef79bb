(** * calc_table, calc_error_rules and LR1Parser::new: the tables are the canonical LR(1) tables *)
From Coq Require Import List Arith Lia Bool Permutation.
From Verif Require Import Lib Grammar LrModel LrSets LrClosure LrStates.
Import ListNotations.

(** ** One row *)
Lemma row_shifts_spec g : NoDup (map fst g) ->
  (forall t, aget eqb t (fst (row_shifts g)) = match aget eqb (TM t) g with Some c => Some (Shift c) | None => None end) /\
  (forall n, aget eqb n (snd (row_shifts g)) = aget eqb (NT n) g) /\ NoDup (map fst (snd (row_shifts g))) /\ NoDup (map fst (fst (row_shifts g))).
Proof.
  unfold row_shifts. intros Hg.
  assert (G : forall (g : list (sym * state)) (a : list (term * action state)) (b : list (nat * state)), NoDup (map fst g) -> NoDup (map fst a) -> NoDup (map fst b) ->
    let r := fold_left (fun ag xs => match fst xs with
      | NT n => (fst ag, aset eqb n (snd xs) (snd ag))
      | TM t => (aset eqb t (Shift (snd xs)) (fst ag), snd ag) end) g (a, b) in
    (forall t, aget eqb t (fst r) = match aget eqb (TM t) g with Some c => Some (Shift c) | None => aget eqb t a end) /\
    (forall n, aget eqb n (snd r) = match aget eqb (NT n) g with Some c => Some c | None => aget eqb n b end) /\
    NoDup (map fst (snd r)) /\ NoDup (map fst (fst r))).
  { clear g Hg. induction g as [|[x s] g IH]; simpl; intros a b Hg Ha Hb; [auto|].
    apply NoDup_cons_iff in Hg as [Hx Hg]. destruct x as [n|t]; simpl.
    - destruct (IH a (aset eqb n s b) Hg Ha (aset_NoDup eqb eqb_eq n s b Hb)) as (A & B & C & D).
      split; [|split; [|split; [exact C|exact D]]].
      + intros t. rewrite A. replace (eqb (TM t) (NT n)) with false by (symmetry; apply eqb_neq; discriminate). reflexivity.
      + intros m. rewrite B, (aget_aset eqb eqb_eq). destruct (eqb m n) eqn:E.
        * apply eqb_eq in E. subst. rewrite (eqb_refl (NT n)).
          assert (E0 : aget eqb (NT n) g = None) by (apply (aget_None eqb eqb_eq); auto). rewrite E0. reflexivity.
        * assert (E0 : eqb (NT m) (NT n) = false) by (apply eqb_neq; apply eqb_neq in E; congruence). rewrite E0. reflexivity.
    - destruct (IH (aset eqb t (Shift s) a) b Hg (aset_NoDup eqb eqb_eq t _ a Ha) Hb) as (A & B & C & D).
      split; [|split; [|split; [exact C|exact D]]].
      + intros m. rewrite A, (aget_aset eqb eqb_eq). destruct (eqb m t) eqn:E.
        * apply eqb_eq in E. subst. rewrite (eqb_refl (TM t)).
          assert (E0 : aget eqb (TM t) g = None) by (apply (aget_None eqb eqb_eq); auto). rewrite E0. reflexivity.
        * assert (E0 : eqb (TM m) (TM t) = false) by (apply eqb_neq; apply eqb_neq in E; congruence). rewrite E0. reflexivity.
      + intros n. rewrite B. replace (eqb (NT n) (TM t)) with false by (symmetry; apply eqb_neq; discriminate). reflexivity. }
  destruct (G g [] [] Hg (NoDup_nil _) (NoDup_nil _)) as (A & B & C & D). split; [|split; [|split; [exact C|exact D]]].
  - intros t. rewrite A. destruct (aget eqb (TM t) g); reflexivity.
  - intros n. rewrite B. destruct (aget eqb (NT n) g); reflexivity.
Qed.

Lemma NoDup_snoc {A} (l : list A) x : NoDup l -> ~ In x l -> NoDup (l ++ [x]).
Proof. intros H1 H2. apply (Permutation_NoDup (Permutation_cons_append l x)). constructor; auto. Qed.

Section Row.
  Variables (rs : list rule) (sr : nat).
  Hypothesis Hlen : length rs = S sr.

  Definition comp (l : list item) (k : nat) (t : term) : Prop :=
    k <> sr /\ exists r, nth_error rs k = Some r /\ In (mk_item k (length (r_rhs r)) t) l.
  Definition acc (l : list item) : Prop :=
    exists r t, nth_error rs sr = Some r /\ In (mk_item sr (length (r_rhs r)) t) l.
  Definition mincomp (l : list item) (k : nat) (t : term) : Prop := comp l k t /\ forall k', comp l k' t -> k <= k'.

  Definition row_spec (a0 : list (term * action state)) (l : list item) (a : list (term * action state)) : Prop :=
    forall t, match aget eqb t a with
              | Some (Shift c) => aget eqb t a0 = Some (Shift c)
              | Some Accept => t = TEoi /\ acc l /\ aget eqb t a0 = None
              | Some (Reduce k) => aget eqb t a0 = None /\ mincomp l k t /\ ~ (t = TEoi /\ acc l)
              | None => aget eqb t a0 = None /\ (forall k, ~ comp l k t) /\ ~ (t = TEoi /\ acc l)
              end.
  Definition warn_spec (st : state) (a0 : list (term * action state)) (l : list item) (x : warning) (t : term) : Prop :=
    exists k, comp l k t /\
      ((exists c, aget eqb t a0 = Some (Shift c) /\ x = WShiftReduce st c k) \/
       (aget eqb t a0 = None /\ exists k0, mincomp l k0 t /\ k0 <> k /\ x = WReduceReduce st k0 k)).

  Lemma comp_snoc l it k t : comp (l ++ [it]) k t <->
    comp l k t \/ (k <> sr /\ exists r, nth_error rs k = Some r /\ it = mk_item k (length (r_rhs r)) t).
  Proof.
    unfold comp. split.
    - intros (H1 & r & H2 & H3). apply in_app_iff in H3 as [H3|[H3|[]]]; [left; eauto|right; eauto].
    - intros [(H1 & r & H2 & H3)|(H1 & r & H2 & H3)]; (split; [auto|]); exists r; (split; [auto|]); apply in_app_iff; simpl; auto.
  Qed.
  Lemma acc_snoc l it : acc (l ++ [it]) <-> acc l \/ exists r t, nth_error rs sr = Some r /\ it = mk_item sr (length (r_rhs r)) t.
  Proof.
    unfold acc. split.
    - intros (r & t & H1 & H2). apply in_app_iff in H2 as [H2|[H2|[]]]; [left; eauto|right; eauto].
    - intros [(r & t & H1 & H2)|(r & t & H1 & H2)]; exists r, t; (split; [auto|]); apply in_app_iff; simpl; auto.
  Qed.

  Lemma row_items_spec st a0 : sorted st -> Forall (wf_item rs) st ->
    (forall t, match aget eqb t a0 with Some (Shift _) => True | None => True | _ => False end) ->
    aget eqb TEoi a0 = None ->
    forall l2 l a w0 c, st = l ++ l2 -> row_spec a0 l a -> (forall x t, In (x, t) c <-> warn_spec st a0 l x t) -> NoDup c ->
    NoDup (map fst a) ->
    exists a' c', foldM (row_item rs sr st) l2 (a, w0 ++ map fst c) = Ok (a', w0 ++ map fst c') /\ row_spec a0 st a' /\
      (forall x t, In (x, t) c' <-> warn_spec st a0 st x t) /\ NoDup c' /\ NoDup (map fst a').
  Proof.
    intros Hs Hw Ha0 Heoi. induction l2 as [|it l2 IH]; intros l a w0 cs Est Hrow Hwarn Hcs Hnd.
    - rewrite app_nil_r in Est. subst l. exists a, cs. simpl. auto.
    - assert (Hwi : wf_item rs it) by (rewrite Forall_forall in Hw; apply Hw; rewrite Est; apply in_app_iff; simpl; auto).
      destruct Hwi as (r & Hr & Hp & _).
      assert (Hlt : forall x, In x l -> lt x it).
      { rewrite Est in Hs. clear - Hs. induction l as [|y l IHl]; [intros x []|].
        simpl in Hs. apply StronglySorted_inv in Hs as [Hs Hy]. intros x [<-|Hx]; [|auto].
        rewrite Forall_forall in Hy. apply Hy. apply in_app_iff. simpl; auto. }
      assert (Hle : forall x, In x l -> i_rule x <= i_rule it).
      { intros x Hx. specialize (Hlt x Hx). unfold lt in Hlt. destruct x as [xr xp xl], it as [ir ip il].
        unfold cmp in Hlt; simpl in Hlt. unfold cmp_pair in Hlt. simpl in *. destruct (Nat.compare xr ir) eqn:E; try discriminate.
        - apply Nat.compare_eq_iff in E. lia.
        - apply Nat.compare_lt_iff in E. lia. }
      assert (Hnin : ~ In it l) by (intros H; apply Hlt in H; apply lt_irrefl in H; auto).
      cbn [foldM]. unfold row_item at 1. rewrite Hr. cbn [of_opt bind].
      assert (Est' : st = (l ++ [it]) ++ l2) by (rewrite <- app_assoc; exact Est).
      destruct (Nat.eqb (i_pos it) (length (r_rhs r))) eqn:Ep.
      + apply Nat.eqb_eq in Ep.
        assert (Eit : it = mk_item (i_rule it) (length (r_rhs r)) (i_la it)) by (destruct it; simpl in *; congruence).
        destruct (Nat.eqb (i_rule it) sr) eqn:Er.
        * apply Nat.eqb_eq in Er. cbn [bind]. apply (IH (l ++ [it])); auto.
          -- assert (Hacc : acc (l ++ [it])).
             { apply acc_snoc. right. exists r, (i_la it). split; congruence. }
             assert (Hco : forall k t, comp (l ++ [it]) k t <-> comp l k t).
             { intros k t. rewrite comp_snoc. split; [|auto]. intros [H|(H1 & r' & H2 & H3)]; [auto|]. rewrite Eit in H3. congruence. }
             intros t. rewrite (aget_aset eqb eqb_eq). destruct (eqb t TEoi) eqn:Et.
             ++ apply eqb_eq in Et. subst t. auto.
             ++ apply eqb_neq in Et. specialize (Hrow t). destruct (aget eqb t a) as [[c|k|]|].
                ** auto.
                ** destruct Hrow as (H1 & [H2 H2'] & H3). split; [auto|]. split; [|tauto].
                   split; [apply Hco; auto|]. intros k' Hk'. apply H2', Hco; auto.
                ** destruct Hrow as (H1 & H2). congruence.
                ** destruct Hrow as (H1 & H2 & H3). split; [auto|]. split; [|tauto]. intros k Hk. apply Hco in Hk. eapply H2; eauto.
          -- assert (Hco : forall k t, comp (l ++ [it]) k t <-> comp l k t).
             { intros k t. rewrite comp_snoc. split; [|auto]. intros [H|(H1 & r' & H2 & H3)]; [auto|]. rewrite Eit in H3. congruence. }
             intros x t. rewrite Hwarn. unfold warn_spec, mincomp.
             split; intros (k & H1 & H2); exists k; (split; [apply Hco; auto|]);
               (destruct H2 as [H2|(H2 & k0 & [H3 H4] & H5)]; [left; auto|right]; split; [auto|]; exists k0; split; [|auto];
                split; [apply Hco; auto|]; intros k' Hk'; apply H4, Hco; auto).
          -- apply (aset_NoDup eqb eqb_eq). auto.
        * apply Nat.eqb_neq in Er.
          assert (Hlt' : i_rule it < sr).
          { apply nth_error_Some_lt in Hr. lia. }
          assert (Hnacc : ~ acc l).
          { intros (r' & t & H1 & H2). apply Hle in H2. simpl in H2. lia. }
          assert (Hnacc' : ~ acc (l ++ [it])).
          { intros H. apply acc_snoc in H as [H|(r' & t & H1 & H2)]; [auto|]. rewrite Eit in H2. congruence. }
          assert (Hit : comp (l ++ [it]) (i_rule it) (i_la it)).
          { apply comp_snoc. right. split; [auto|]. exists r. auto. }
          assert (Hco : forall k t, comp (l ++ [it]) k t -> comp l k t \/ (k = i_rule it /\ t = i_la it)).
          { intros k t H. apply comp_snoc in H as [H|(H1 & r' & H2 & H3)]; [auto|]. right. rewrite H3. auto. }
          assert (Hco' : forall k t, comp l k t -> comp (l ++ [it]) k t).
          { intros k t H. apply comp_snoc. auto. }
          assert (Hrule : forall k t, comp l k t -> k <= i_rule it).
          { intros k t (_ & r' & _ & H). apply Hle in H. exact H. }
          assert (Hne : forall k t, comp l k t -> t = i_la it -> k <> i_rule it).
          { intros k t (_ & r' & H1 & H2) -> ->. rewrite Hr in H1. injection H1 as <-. rewrite <- Eit in H2. auto. }
          assert (Hmin : forall k t, mincomp l k t -> mincomp (l ++ [it]) k t).
          { intros k t [H1 H2]. split; [auto|]. intros k' Hk'. apply Hco in Hk' as [Hk'|[-> ->]]; [auto|]. eapply Hrule; eauto. }
          pose proof (Hrow (i_la it)) as Hrl. destruct (aget eqb (i_la it) a) as [[c|k|]|] eqn:Ea; cbn [bind].
          -- rewrite <- app_assoc. change [WShiftReduce st c (i_rule it)] with (map fst [(WShiftReduce st c (i_rule it), i_la it)]). rewrite <- map_app.
             apply (IH (l ++ [it])); auto.
             ++ intros t. specialize (Hrow t). destruct (aget eqb t a) as [[c'|k'|]|] eqn:Et.
                ** auto.
                ** destruct Hrow as (H1 & H2 & H3). split; [auto|]. split; [auto|tauto].
                ** tauto.
                ** destruct Hrow as (H1 & H2 & H3). split; [auto|]. split; [|tauto]. intros k' Hk'.
                   apply Hco in Hk' as [Hk'|[-> ->]]; [eapply H2; eauto|congruence].
             ++ intros x t. rewrite in_app_iff. rewrite Hwarn. split.
                ** intros [(k & H1 & H2)|[E0|[]]].
                   --- exists k. split; [auto|]. destruct H2 as [H2|(H2 & k0 & H3 & H4)]; [auto|]. right. split; [auto|]. exists k0. split; [auto|auto].
                   --- injection E0 as <- <-. exists (i_rule it). split; [auto|]. left. exists c. auto.
                ** intros (k & H1 & H2). apply Hco in H1 as [H1|[-> ->]].
                   --- left. exists k. split; [auto|]. destruct H2 as [H2|(H2 & k0 & [H3 H3'] & H4)]; [auto|]. right.
                       split; [auto|]. exists k0. split; [|auto]. split; [|intros k' Hk'; auto].
                       apply Hco in H3 as [H3|[-> ->]]; [auto|]. exfalso. congruence.
                   --- destruct H2 as [(c' & H2 & ->)|(H2 & _)]; [|congruence]. right. left. congruence.
             ++ apply NoDup_snoc; [auto|]. intros H. apply Hwarn in H as (k & H1 & H2).
                assert (k = i_rule it) by (destruct H2 as [(c' & _ & E0)|(_ & k0 & _ & _ & E0)]; congruence).
                eapply Hne; eauto.
          -- destruct Hrl as (Hr1 & Hr2 & Hr3).
             rewrite <- app_assoc. change [WReduceReduce st k (i_rule it)] with (map fst [(WReduceReduce st k (i_rule it), i_la it)]). rewrite <- map_app.
             apply (IH (l ++ [it])); auto.
             ++ intros t. specialize (Hrow t). destruct (aget eqb t a) as [[c'|k'|]|] eqn:Et.
                ** auto.
                ** destruct Hrow as (H1 & H2 & H3). split; [auto|]. split; [auto|tauto].
                ** tauto.
                ** destruct Hrow as (H1 & H2 & H3). split; [auto|]. split; [|tauto]. intros k' Hk'.
                   apply Hco in Hk' as [Hk'|[-> ->]]; [eapply H2; eauto|congruence].
             ++ intros x t. rewrite in_app_iff. rewrite Hwarn. split.
                ** intros [(k1 & H1 & H2)|[E0|[]]].
                   --- exists k1. split; [auto|]. destruct H2 as [H2|(H2 & k0 & H3 & H4)]; [auto|]. right. split; [auto|]. exists k0. split; [auto|auto].
                   --- injection E0 as <- <-. exists (i_rule it). split; [auto|]. right. split; [auto|]. exists k. split; [auto|]. split; [|auto].
                       destruct Hr2 as [Hr2 _]. eapply Hne; eauto.
                ** intros (k1 & H1 & H2). apply Hco in H1 as [H1|[-> ->]].
                   --- left. exists k1. split; [auto|]. destruct H2 as [H2|(H2 & k0 & [H3 H3'] & H4)]; [auto|]. right.
                       split; [auto|]. exists k0. split; [|auto]. split; [|intros k' Hk'; auto].
                       apply Hco in H3 as [H3|[-> ->]]; [auto|]. exfalso.
                       assert (k1 <= i_rule it) by eauto. assert (i_rule it <= k1) by auto. lia.
                   --- destruct H2 as [(c' & H2 & ->)|(H2 & k0 & [H3 H3'] & H4 & ->)]; [congruence|]. right. left.
                       f_equal. f_equal. destruct Hr2 as [Hr2 Hr2'].
                       apply Hco in H3 as [H3|[-> _]]; [|congruence].
                       apply Nat.le_antisymm; [apply Hr2'; auto|apply H3'; auto].
             ++ apply NoDup_snoc; [auto|]. intros H. apply Hwarn in H as (k1 & H1 & H2).
                assert (k1 = i_rule it) by (destruct H2 as [(c' & _ & E0)|(_ & k0 & _ & _ & E0)]; congruence).
                eapply Hne; eauto.
          -- tauto.
          -- destruct Hrl as (Hr1 & Hr2 & Hr3). apply (IH (l ++ [it])); auto.
             ++ intros t. rewrite (aget_aset eqb eqb_eq). destruct (eqb t (i_la it)) eqn:Et.
                ** apply eqb_eq in Et. subst t. split; [auto|]. split; [|tauto]. split; [auto|].
                   intros k' Hk'. apply Hco in Hk' as [Hk'|[-> _]]; [exfalso; eapply Hr2; eauto|auto].
                ** apply eqb_neq in Et. specialize (Hrow t). destruct (aget eqb t a) as [[c'|k'|]|].
                   --- auto.
                   --- destruct Hrow as (H1 & H2 & H3). split; [auto|]. split; [auto|tauto].
                   --- tauto.
                   --- destruct Hrow as (H1 & H2 & H3). split; [auto|]. split; [|tauto]. intros k' Hk'.
                       apply Hco in Hk' as [Hk'|[-> ->]]; [eapply H2; eauto|congruence].
             ++ intros x t. rewrite Hwarn. split.
                ** intros (k1 & H1 & H2). exists k1. split; [auto|]. destruct H2 as [H2|(H2 & k0 & H3 & H4)]; [auto|]. right.
                   split; [auto|]. exists k0. split; [auto|auto].
                ** intros (k1 & H1 & H2). apply Hco in H1 as [H1|[-> ->]].
                   --- exists k1. split; [auto|]. destruct H2 as [H2|(H2 & k0 & [H3 H3'] & H4)]; [auto|]. right.
                       split; [auto|]. exists k0. split; [|auto]. split; [|intros k' Hk'; auto].
                       apply Hco in H3 as [H3|[-> ->]]; [auto|]. exfalso. eapply Hr2; eauto.
                   --- exfalso. destruct H2 as [(c' & H2 & ->)|(H2 & k0 & [H3 H3'] & H4 & ->)]; [congruence|].
                       apply Hco in H3 as [H3|[-> _]]; [eapply Hr2; eauto|congruence].
             ++ apply (aset_NoDup eqb eqb_eq). auto.
      + apply Nat.eqb_neq in Ep. cbn [bind].
        assert (Hco : forall k t, comp (l ++ [it]) k t <-> comp l k t).
        { intros k t. rewrite comp_snoc. split; [|auto]. intros [H|(H1 & r' & H2 & H3)]; [auto|]. exfalso. rewrite H3 in *. simpl in *. congruence. }
        assert (Hac : acc (l ++ [it]) <-> acc l).
        { rewrite acc_snoc. split; [|auto]. intros [H|(r' & t & H1 & H2)]; [auto|]. exfalso. rewrite H2 in *. simpl in *. congruence. }
        apply (IH (l ++ [it])); auto.
        * intros t. specialize (Hrow t). destruct (aget eqb t a) as [[c|k|]|].
          -- auto.
          -- destruct Hrow as (H1 & [H2 H2'] & H3). split; [auto|]. split; [|tauto].
             split; [apply Hco; auto|]. intros k' Hk'. apply H2', Hco; auto.
          -- tauto.
          -- destruct Hrow as (H1 & H2 & H3). split; [auto|]. split; [|tauto]. intros k Hk. apply Hco in Hk. eapply H2; eauto.
        * intros x t. rewrite Hwarn. unfold warn_spec, mincomp.
          split; intros (k & H1 & H2); exists k; (split; [apply Hco; auto|]);
            (destruct H2 as [H2|(H2 & k0 & [H3 H4] & H5)]; [left; auto|right]; split; [auto|]; exists k0; split; [|auto];
             split; [apply Hco; auto|]; intros k' Hk'; apply H4, Hco; auto).
  Qed.

  Lemma row_ok st go w0 : sorted st -> Forall (wf_item rs) st -> NoDup (map fst go) -> ~ In (TM TEoi) (map fst go) ->
    exists a c, foldM (row_item rs sr st) st (fst (row_shifts go), w0) = Ok (a, w0 ++ map fst c) /\ row_spec (fst (row_shifts go)) st a /\
      (forall x t, In (x, t) c <-> warn_spec st (fst (row_shifts go)) st x t) /\ NoDup c /\ NoDup (map fst a).
  Proof.
    intros Hs Hw Hg He. destruct (row_shifts_spec go Hg) as (A & B & C & D).
    destruct (row_items_spec st (fst (row_shifts go)) Hs Hw) with (l2 := st) (l := @nil item) (a := fst (row_shifts go)) (w0 := w0) (c := @nil (warning * term))
      as (a' & c' & E' & R'); [| | | | | | |rewrite app_nil_r in E'; eauto].
    - intros t. rewrite A. destruct (aget eqb (TM t) go); exact I.
    - rewrite A. assert (E0 : aget eqb (TM TEoi) go = None) by (apply (aget_None eqb eqb_eq); auto). rewrite E0. reflexivity.
    - reflexivity.
    - intros t. rewrite A. destruct (aget eqb (TM t) go); [auto|]. split; [auto|]. split.
      + intros k (_ & r & _ & []).
      + intros (_ & r & t' & _ & []).
    - intros x t. split; [intros []|]. intros (k & (_ & r & _ & []) & _).
    - constructor.
    - exact D.
  Qed.
End Row.
