(** * The states found by calc_all_goto are the sets of items valid for the viable prefixes *)
From Coq Require Import List Arith Lia Bool Permutation.
From Verif Require Import Lib Grammar LrModel LrSets LrClosure.
Import ListNotations.

Lemma loop_ext {S R} (step1 step2 : S -> S + res R) (I : S -> Prop) :
  (forall s, I s -> step1 s = step2 s) -> (forall s s', I s -> step2 s = inl s' -> I s') ->
  forall fuel s, I s -> loop step1 fuel s = loop step2 fuel s.
Proof.
  intros H1 H2. induction fuel as [|f IH]; intros s Hi; [reflexivity|]. simpl. rewrite (H1 s Hi).
  destruct (step2 s) eqn:E; [|reflexivity]. apply IH. eapply H2; eauto.
Qed.

(** all sorted sublists *)
Fixpoint subs {A} (l : list A) : list (list A) :=
  match l with [] => [[]] | x :: l' => subs l' ++ map (cons x) (subs l') end.
Lemma In_subs {A} `{Ord A} (u : list A) : sorted u -> forall l, sorted l -> incl l u -> In l (subs u).
Proof.
  induction u as [|x u IH]; simpl; intros Hu l Hl Hi.
  - destruct l as [|y l]; [auto|]. destruct (Hi y (or_introl eq_refl)).
  - apply StronglySorted_inv in Hu as [Hu Hx]. rewrite Forall_forall in Hx. apply in_app_iff.
    destruct l as [|y l].
    + left. apply IH; auto. intros z [].
    + pose proof (StronglySorted_inv Hl) as [Hl' Hy]. rewrite Forall_forall in Hy.
      destruct (Hi y (or_introl eq_refl)) as [<-|Hyu].
      * right. apply in_map. apply IH; auto. intros z Hz. destruct (Hi z (or_intror Hz)) as [<-|H']; [|auto].
        exfalso. apply (lt_irrefl x). auto.
      * left. apply IH; auto. intros z Hz. destruct (Hi z Hz) as [<-|H']; [|auto]. exfalso.
        destruct Hz as [->|Hz]; [apply (lt_irrefl x); auto|]. apply (lt_irrefl y). eapply lt_trans; [apply (Hy x Hz)|]. auto.
Qed.

Section States.
  Variables (rs : list rule) (sr : nat) (nl : list sym) (fm : list (sym * list term)).
  Hypothesis Hnl : null_exact rs nl.
  Hypothesis Hfm : first_exact rs fm.
  Hypothesis Hsr : exists r, nth_error rs sr = Some r.

  Notation valid := (valid rs sr).
  Notation bad := (bad rs).
  Notation clos := (clos rs).
  Notation moved := (moved rs).
  Notation wf_item := (wf_item rs).

  Lemma valid_cstep g it x : valid g it -> cstep rs it x -> valid g x.
  Proof.
    intros H (r & A & r' & k' & t & E1 & E2 & E3 & E4 & E5 & ->). destruct it as [k p la]. simpl in *.
    eapply valid_closure; eauto.
  Qed.
  Lemma valid_nil it : valid [] it <-> clos (eq (mk_item sr 0 TEoi)) it.
  Proof.
    split.
    - intros H. remember (@nil sym) as g eqn:Eg. induction H as [|g k p la r X H IH Hr Hp|g k p la r A k' r' t H IH Hr Hp Hr' HA Ht].
      + constructor. reflexivity.
      + destruct g; discriminate.
      + eapply clos_c; [apply IH; auto|]. exists r, A, r', k', t. auto 10.
    - induction 1 as [it <-|it x H IH Hx]; [constructor|]. eapply valid_cstep; eauto.
  Qed.
  Lemma valid_snoc g X it : valid (g ++ [X]) it <-> clos (moved (valid g) X) it.
  Proof.
    split.
    - intros H. remember (g ++ [X]) as g' eqn:Eg. induction H as [|g' k p la r Y H IH Hr Hp|g' k p la r A k' r' t H IH Hr Hp Hr' HA Ht].
      + destruct g; discriminate.
      + apply app_inj_tail in Eg as [-> ->]. constructor. exists k, p, la, r. auto.
      + eapply clos_c; [apply IH; auto|]. exists r, A, r', k', t. auto 10.
    - induction 1 as [it (k & p & la & r & H1 & H2 & H3 & ->)|it x H IH Hx].
      + eapply valid_goto; eauto.
      + eapply valid_cstep; eauto.
  Qed.
  Lemma valid_wf g it : valid g it -> wf_item it.
  Proof.
    induction 1 as [|g k p la r X H IH Hr Hp|g k p la r A k' r' t H IH Hr Hp Hr' HA Ht].
    - destruct Hsr as [r Hr]. exists r. simpl. split; [auto|]. split; [lia|auto].
    - destruct IH as (r0 & E1 & E2 & E3). simpl in *. exists r0. simpl. split; [auto|]. split; [|auto].
      rewrite Hr in E1. injection E1 as <-. apply nth_error_Some_lt in Hp. lia.
    - eapply cstep_wf; [exact IH|]. exists r, A, r', k', t. auto 10.
  Qed.

  Definition rep (g : list sym) (st : state) : Prop := sorted st /\ forall it, In it st <-> valid g it.
  Lemma rep_unique g st st' : rep g st -> rep g st' -> st = st'.
  Proof. intros [H1 H2] [H3 H4]. apply sorted_ext; auto. intros x. rewrite H2, H4. reflexivity. Qed.
  Lemma rep_wf g st : rep g st -> Forall wf_item st.
  Proof. intros [_ H]. apply Forall_forall. intros it Hi. eapply valid_wf. apply H; eauto. Qed.
  Lemma rep_moved g st X it : rep g st -> (moved (fun i => In i st) X it <-> moved (valid g) X it).
  Proof. intros [_ H]. split; intros (k & p & la & r & H1 & H2); exists k, p, la, r; (split; [apply H; auto|auto]). Qed.
  Lemma rep_clos_moved g st X it : rep g st -> (clos (moved (fun i => In i st) X) it <-> valid (g ++ [X]) it).
  Proof.
    intros H. rewrite valid_snoc. split; apply clos_mono; intros i; apply (rep_moved g st X i H).
  Qed.

  (** the start state *)
  Lemma start_state_ok : exists F r, (forall fuel, F <= fuel -> calc_closure rs nl fm fuel [mk_item sr 0 TEoi] = r) /\
    match r with
    | Ok s0 => rep [] s0 /\ forall it, valid [] it -> ~ bad it
    | Panic => exists it, valid [] it /\ bad it
    | OutOfFuel => False
    end.
  Proof.
    destruct (calc_closure_ok rs nl fm Hnl Hfm [mk_item sr 0 TEoi]) as (F & r & Hr & HF).
    - repeat constructor.
    - constructor; [|constructor]. eapply valid_wf. constructor.
    - exists F, r. split; [auto|].
      assert (E : forall it, clos (fun it => In it [mk_item sr 0 TEoi]) it <-> valid [] it).
      { intros it. rewrite valid_nil. split; apply clos_mono; simpl; intuition. }
      destruct r as [s0| |]; simpl in Hr.
      + destruct Hr as (H1 & H2 & H3). split; [split; [auto|]; intros it; rewrite H2; auto|].
        intros it Hi. apply H3, E. auto.
      + destruct Hr as (it & H1 & H2). exists it. split; [apply E; auto|auto].
      + destruct Hr.
  Qed.

  (** what is known about an entry of the state list *)
  Definition entry_ok (st : state) (go : list (sym * state)) : Prop :=
    exists g, rep g st /\ (exists it, valid g it) /\ NoDup (map fst go) /\
      (forall X c, In (X, c) go -> rep (g ++ [X]) c /\ (exists it, valid (g ++ [X]) it)) /\
      (forall X it, valid (g ++ [X]) it -> exists c, In (X, c) go).

  Definition node (st : state) : Prop := exists g, rep g st /\ (exists it, valid g it) /\ (forall it, valid g it -> ~ bad it).

  Lemma node_goto st go : node st -> goto_result rs st (Ok go) -> entry_ok st go /\ forall X c, In (X, c) go -> node c.
  Proof.
    intros (g & Hg & Hne & Hb) (H1 & H2 & H3).
    assert (Hrep : forall X c, In (X, c) go -> rep (g ++ [X]) c /\ (exists it, valid (g ++ [X]) it) /\ forall it, valid (g ++ [X]) it -> ~ bad it).
    { intros X c Hc. destruct (H2 X c Hc) as ((it & Hit) & Hs & Hc1 & Hc2). split; [|split].
      - split; [auto|]. intros i. rewrite Hc1. apply rep_clos_moved; auto.
      - exists it. apply (rep_clos_moved g st); auto. constructor. auto.
      - intros i Hi. apply Hc2. apply (rep_clos_moved g st); auto. }
    split.
    - exists g. split; [auto|]. split; [auto|]. split; [auto|]. split.
      + intros X c Hc. destruct (Hrep X c Hc) as (A & B & _). auto.
      + intros X it Hit. apply (rep_clos_moved g st) in Hit; [|auto].
        assert (G : exists i, moved (fun i => In i st) X i) by (induction Hit; eauto).
        destruct G as [i Hi]. eauto.
    - intros X c Hc. exists (g ++ [X]). apply Hrep; auto.
  Qed.

  Definition states_ok (s0 : state) (sl : list (state * list (sym * state))) : Prop :=
    NoDup (map fst sl) /\ In s0 (map fst sl) /\ Forall (fun sg => entry_ok (fst sg) (snd sg)) sl /\
    (forall st go X c, In (st, go) sl -> In (X, c) go -> In c (map fst sl)) /\
    (forall st, In st (map fst sl) -> node st).

  Lemma uniform_fuel (l : list state) : Forall (fun st => Forall wf_item st) l ->
    exists F, forall st, In st l -> exists r, goto_result rs st r /\ forall fuel, F <= fuel -> calc_goto rs nl fm fuel st = r.
  Proof.
    induction l as [|st l IH]; intros H; [exists 0; intros st []|].
    apply Forall_cons_iff in H as [H1 H2]. destruct (IH H2) as [F2 HF2].
    destruct (calc_goto_ok rs nl fm Hnl Hfm st H1) as (F1 & r & Hr & HF1).
    exists (F1 + F2). intros s [<-|Hs].
    - exists r. split; [auto|]. intros fuel Hf. apply HF1. lia.
    - destruct (HF2 s Hs) as (r' & Hr' & HF'). exists r'. split; [auto|]. intros fuel Hf. apply HF'. lia.
  Qed.

  Definition U : list item := to_set (all_items rs).
  Lemma node_subs st : node st -> In st (subs U).
  Proof.
    intros (g & [Hs Hg] & _). apply In_subs; [apply sorted_to_set|auto|]. intros it Hi. apply In_to_set, all_items_spec.
    eapply valid_wf, Hg. auto.
  Qed.
  Lemma subs_wf : Forall (fun st => Forall wf_item st) (subs U).
  Proof.
    assert (G : forall u, Forall wf_item u -> Forall (fun st => Forall wf_item st) (subs u)).
    { induction u as [|x u IH]; simpl; intros H; [repeat constructor|]. apply Forall_cons_iff in H as [H1 H2]. specialize (IH H2).
      apply Forall_app. split; [auto|]. apply Forall_map. eapply Forall_impl; [|exact IH]. intros a Ha. constructor; auto. }
    apply G. apply Forall_forall. intros it Hi. apply In_to_set, all_items_spec in Hi. auto.
  Qed.

  Definition AI (s0 : state) (qs : list state * list (state * list (sym * state))) : Prop :=
    Forall node (fst qs) /\ (forall st, In st (map fst (snd qs)) -> node st) /\ NoDup (map fst (snd qs)) /\
    Forall (fun sg => entry_ok (fst sg) (snd sg)) (snd qs) /\
    (forall st go X c, In (st, go) (snd qs) -> In (X, c) go -> In c (fst qs) \/ In c (map fst (snd qs))) /\
    (In s0 (fst qs) \/ In s0 (map fst (snd qs))).

  Lemma NoDup_snoc {A} (l : list A) x : NoDup l -> ~ In x l -> NoDup (l ++ [x]).
  Proof.
    intros H1 H2. induction H1 as [|a l Ha Hl IH]; simpl; [repeat constructor; auto|].
    constructor; [|apply IH; intros H; apply H2; right; auto].
    intros H. apply in_app_iff in H as [H|[H|[]]]; [auto|]. apply H2. left; auto.
  Qed.

  Lemma calc_all_goto_ok (ord : list (sym * state) -> list (sym * state)) s0 :
    (forall l, Permutation l (ord l)) -> node s0 ->
    exists F r, (forall fuel, F <= fuel -> calc_all_goto rs nl fm ord fuel s0 = r) /\
      match r with
      | Ok sl => states_ok s0 sl
      | Panic => exists g it, valid g it /\ bad it
      | OutOfFuel => False
      end.
  Proof.
    intros Hord Hs0.
    destruct (uniform_fuel (subs U) subs_wf) as [F1 HF1].
    set (f := fun qs : list state * list (state * list (sym * state)) =>
                length (filter (fun st => negb (existsb (list_eqb st) (map fst (snd qs)))) (subs U))).
    set (g := fun qs : list state * list (state * list (sym * state)) => length (fst qs)).
    assert (Hstep : forall fuel, F1 <= fuel -> forall qs, AI s0 qs ->
       all_step rs nl fm ord fuel qs = all_step rs nl fm ord F1 qs /\
       match all_step rs nl fm ord fuel qs with
       | inl qs' => AI s0 qs' /\ (f qs' < f qs \/ (f qs' = f qs /\ g qs' < g qs))
       | inr r => r <> OutOfFuel /\
           match r with
           | Ok sl => states_ok s0 sl
           | Panic => exists g it, valid g it /\ bad it
           | OutOfFuel => False
           end
       end).
    { intros fuel Hfuel [q sl] (A1 & A2 & A3 & A4 & A5 & A6). unfold all_step. simpl fst in *; simpl snd in *.
      destruct q as [|st q].
      - split; [reflexivity|]. split; [discriminate|]. split; [auto|]. split; [destruct A6 as [[]|A6]; auto|]. split; [auto|]. split; [|auto].
        intros st go X c H1 H2. destruct (A5 st go X c H1 H2) as [[]|A5']; auto.
      - apply Forall_cons_iff in A1 as [A1 A1']. destruct (aget list_eqb st sl) as [go|] eqn:E.
        + split; [reflexivity|]. apply (aget_In list_eqb list_eqb_eq) in E.
          assert (Hin : In st (map fst sl)) by (apply in_map_iff; exists (st, go); auto).
          split; [|right; unfold f, g; simpl; split; [auto|lia]].
          split; [auto|]. split; [auto|]. split; [auto|]. split; [auto|]. simpl. split.
          * intros s go' X c H1 H2. destruct (A5 s go' X c H1 H2) as [[<-|A]|A]; auto.
          * destruct A6 as [[<-|A]|A]; auto.
        + destruct (HF1 st (node_subs st A1)) as (r & Hr & HFr). rewrite (HFr fuel Hfuel), (HFr F1 (le_n _)). split; [reflexivity|].
          apply (aget_None list_eqb list_eqb_eq) in E.
          destruct r as [go| |].
          * destruct (node_goto st go A1 Hr) as [He Hc]. split.
            -- unfold AI. cbn [fst snd]. rewrite map_app. simpl map.
               assert (Hord' : forall c, In c (map snd (ord go)) <-> In c (map snd go)).
               { intros c. split; apply Permutation_in; [apply Permutation_sym|]; apply Permutation_map, Hord. }
               split; [|split; [|split; [|split; [|split]]]].
               ++ apply Forall_app. split; [auto|]. apply Forall_forall. intros c Hcc. apply Hord', in_map_iff in Hcc as ([X c'] & <- & Hcc). eapply Hc; eauto.
               ++ intros s Hs. apply in_app_iff in Hs as [Hs|[<-|[]]]; auto.
               ++ apply NoDup_snoc; auto.
               ++ apply Forall_app. split; [auto|]. constructor; [auto|constructor].
               ++ intros s go' X c H1 H2. apply in_app_iff in H1 as [H1|[H1|[]]].
                  ** destruct (A5 s go' X c H1 H2) as [[<-|A]|A].
                     --- right. apply in_app_iff. right. left. auto.
                     --- left. apply in_app_iff. auto.
                     --- right. apply in_app_iff. auto.
                  ** injection H1 as <- <-. left. apply in_app_iff. right. apply Hord', in_map_iff. exists (X, c). auto.
               ++ destruct A6 as [[<-|A]|A].
                  ** right. apply in_app_iff. right; left; auto.
                  ** left. apply in_app_iff. auto.
                  ** right. apply in_app_iff. auto.
            -- left. unfold f. cbn [fst snd]. rewrite map_app. simpl map. apply filter_lt.
               ++ intros s _ H. apply negb_true_iff in H. apply negb_true_iff. rewrite existsb_app in H. apply orb_false_iff in H. tauto.
               ++ exists st. split; [apply node_subs; auto|]. split.
                  ** apply negb_true_iff. destruct (existsb (list_eqb st) (map fst sl)) eqn:Ex; [|auto].
                     apply existsb_exists in Ex as (s & Hs & Ex). apply list_eqb_eq in Ex. subst s. contradiction.
                  ** apply negb_false_iff. rewrite existsb_app. apply orb_true_iff. right. simpl. rewrite list_eqb_refl. reflexivity.
          * split; [discriminate|]. destruct Hr as (X & it & H1 & H2). destruct A1 as (g0 & Hg0 & _).
            exists (g0 ++ [X]), it. split; [|auto]. apply (rep_clos_moved g0 st); auto.
          * destruct Hr. }
    destruct (loop_term (all_step rs nl fm ord F1) (AI s0) (fun s' s => f s' < f s \/ (f s' = f s /\ g s' < g s))
                (fun r => match r with
                   | Ok sl => states_ok s0 sl
                   | Panic => exists g it, valid g it /\ bad it
                   | OutOfFuel => False
                   end)) with (s := ([s0], @nil (state * list (sym * state)))) as (F2 & r & Hr & HF2).
    - apply lex_wf.
    - intros qs Hqs. destruct (Hstep F1 (le_n _) qs Hqs) as [_ H]. exact H.
    - unfold AI. cbn [fst snd map]. split; [constructor; auto|]. split; [intros st []|]. split; [constructor|]. split; [constructor|]. split; [intros st go X c []|].
      left; left; auto.
    - exists (F1 + F2), r. split; [|auto]. intros fuel Hf. unfold calc_all_goto.
      rewrite (loop_ext _ (all_step rs nl fm ord F1) (AI s0)).
      + apply HF2. lia.
      + intros qs Hqs. apply Hstep; [lia|auto].
      + intros qs qs' Hqs E. destruct (Hstep F1 (le_n _) qs Hqs) as [_ H]. rewrite E in H. apply H.
      + unfold AI. cbn [fst snd map]. split; [constructor; auto|]. split; [intros st []|]. split; [constructor|]. split; [constructor|]. split; [intros st go X c []|].
        left; left; auto.
  Qed.
End States.
