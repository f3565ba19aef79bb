(** * LR1Parser::new builds the canonical tables *)
From Coq Require Import List Arith Lia Bool Permutation.
From Verif Require Import Lib Grammar LrModel LrSpec LrSets LrClosure LrStates LrTable.
Import ListNotations.

Lemma NoDup_app' {A} (l l' : list A) : NoDup l -> NoDup l' -> (forall x, In x l -> ~ In x l') -> NoDup (l ++ l').
Proof.
  intros H1 H2 H3. induction l as [|x l IH]; simpl; [auto|]. apply NoDup_cons_iff in H1 as [Hx H1]. constructor.
  - intros H. apply in_app_iff in H as [H|H]; [auto|]. apply (H3 x); simpl; auto.
  - apply IH; auto. intros y Hy. apply H3. right; auto.
Qed.

Section Table.
  Variables (rs : list rule) (sr : nat).
  Hypothesis Hlen : length rs = S sr.

  Definition pre_entry (sg : state * list (sym * state)) : Prop :=
    sorted (fst sg) /\ Forall (wf_item rs) (fst sg) /\ NoDup (map fst (snd sg)) /\ ~ In (TM TEoi) (map fst (snd sg)).

  Lemma table_fold sl : forall tb, NoDup (map fst sl) -> Forall pre_entry sl ->
    (forall st, In st (map fst sl) -> ~ In st (map fst (tb_action tb)) /\ ~ In st (map fst (tb_goto tb))) ->
    NoDup (map fst (tb_action tb)) -> NoDup (map fst (tb_goto tb)) ->
    exists tb', foldM (table_state rs sr) sl tb = Ok tb' /\
      (forall st, match aget list_eqb st sl with
                  | Some go => exists a, aget list_eqb st (tb_action tb') = Some a /\ NoDup (map fst a) /\
                      row_spec rs sr (fst (row_shifts go)) st a
                  | None => aget list_eqb st (tb_action tb') = aget list_eqb st (tb_action tb)
                  end) /\
      (forall st, aget list_eqb st (tb_goto tb') =
                  match aget list_eqb st sl with
                  | Some go => match snd (row_shifts go) with [] => None | r => Some r end
                  | None => aget list_eqb st (tb_goto tb)
                  end) /\
      NoDup (map fst (tb_action tb')) /\ NoDup (map fst (tb_goto tb')) /\
      exists c, tb_warn tb' = tb_warn tb ++ map fst c /\ NoDup c /\
        (forall x t, In (x, t) c <-> exists st go, In (st, go) sl /\ warn_spec rs sr st (fst (row_shifts go)) st x t).
  Proof.
    induction sl as [|[st go] sl IH]; intros tb Hnd Hp Hk Ha Hg.
    - exists tb. simpl. split; [auto|]. split; [auto|]. split; [auto|]. split; [auto|]. split; [auto|].
      exists []. simpl. rewrite app_nil_r. split; [auto|]. split; [constructor|]. intros x t. split; [intros []|]. intros (st & go & [] & _).
    - simpl in Hnd. apply NoDup_cons_iff in Hnd as [Hst Hnd]. apply Forall_cons_iff in Hp as [(P1 & P2 & P3 & P4) Hp]. simpl in P1, P2, P3, P4.
      destruct (row_ok rs sr Hlen st go (tb_warn tb) P1 P2 P3 P4) as (a & cw & Er & Hrow & Hw & Hcw & Hna).
      cbn [foldM]. unfold table_state at 1. destruct (row_shifts go) as [a0 g0] eqn:Es. cbn [fst snd] in *.
      rewrite Er. cbn [bind fst snd].
      set (tb1 := mk_tables (aset list_eqb st a (tb_action tb))
                    (match g0 with [] => tb_goto tb | _ => aset list_eqb st g0 (tb_goto tb) end) (tb_warn tb ++ map fst cw)).
      assert (Hgk : forall s, In s (map fst (tb_goto tb1)) -> s = st \/ In s (map fst (tb_goto tb))).
      { intros s Hs. unfold tb1 in Hs. simpl in Hs. destruct g0; [auto|]. apply (aset_keys list_eqb list_eqb_eq) in Hs. auto. }
      destruct (IH tb1 Hnd Hp) as (tb' & E' & A & B & C & D & c & F1 & F2 & F3).
      + intros s Hs. assert (Hne : s <> st) by (intros ->; auto). destruct (Hk s (or_intror Hs)) as [H1 H2]. split.
        * unfold tb1. simpl. intros H. apply (aset_keys list_eqb list_eqb_eq) in H as [H|H]; auto.
        * intros H. apply Hgk in H as [H|H]; auto.
      + unfold tb1. simpl. apply (aset_NoDup list_eqb list_eqb_eq). auto.
      + unfold tb1. simpl. destruct g0; [auto|]. apply (aset_NoDup list_eqb list_eqb_eq). auto.
      + exists tb'. split; [exact E'|]. split; [|split; [|split; [auto|split; [auto|]]]].
        * intros s. cbn [aget]. specialize (A s). destruct (list_eqb s st) eqn:Ess.
          -- apply list_eqb_eq in Ess. subst s. exists a. split; [|split; [auto|rewrite Es; auto]].
             assert (E0 : aget list_eqb st sl = None) by (apply (aget_None list_eqb list_eqb_eq); auto). rewrite E0 in A. rewrite A.
             unfold tb1. simpl. rewrite (aget_aset list_eqb list_eqb_eq), list_eqb_refl. reflexivity.
          -- destruct (aget list_eqb s sl); [auto|]. rewrite A. unfold tb1. simpl.
             rewrite (aget_aset list_eqb list_eqb_eq), Ess. reflexivity.
        * intros s. cbn [aget]. rewrite B. destruct (list_eqb s st) eqn:Ess.
          -- apply list_eqb_eq in Ess. subst s.
             assert (E0 : aget list_eqb st sl = None) by (apply (aget_None list_eqb list_eqb_eq); auto). rewrite E0, Es. simpl.
             destruct g0 as [|x g0].
             ++ apply (aget_None list_eqb list_eqb_eq). apply Hk. left; auto.
             ++ rewrite (aget_aset list_eqb list_eqb_eq), list_eqb_refl. reflexivity.
          -- destruct (aget list_eqb s sl); [auto|]. unfold tb1. simpl. destruct g0; [auto|].
             rewrite (aget_aset list_eqb list_eqb_eq), Ess. reflexivity.
        * exists (cw ++ c). split; [|split].
          -- rewrite F1. unfold tb1. simpl. rewrite map_app, app_assoc. reflexivity.
          -- apply NoDup_app'; [auto|auto|]. intros [x t] H1 H2. apply Hw in H1 as (k & _ & H1). apply F3 in H2 as (s & g & H2 & k' & _ & H3).
             assert (s = st) by (destruct H1 as [(c1 & _ & ->)|(_ & k1 & _ & _ & ->)]; destruct H3 as [(c2 & _ & E2)|(_ & k2 & _ & _ & E2)]; congruence).
             subst s. apply Hst. apply in_map_iff. exists (st, g). auto.
          -- intros x t. rewrite in_app_iff, Hw, F3. split.
             ++ intros [H|(s & g & H1 & H2)].
                ** exists st, go. split; [left; auto|]. rewrite Es. auto.
                ** exists s, g. split; [right; auto|auto].
             ++ intros (s & g & [H1|H1] & H2).
                ** injection H1 as -> ->. rewrite Es in H2. auto.
                ** right. exists s, g. auto.
  Qed.
End Table.

(** ** Renumbering *)
Lemma number_row_ok {K A B} (keq : K -> K -> bool) (f : A -> res B) (row : list (K * A)) :
  (forall k a, In (k, a) row -> exists b, f a = Ok b) ->
  exists row', number_row f row = Ok row' /\ length row' = length row /\
    forall k, aget keq k row' = match aget keq k row with
                                | Some a => match f a with Ok b => Some b | _ => None end
                                | None => None
                                end.
Proof.
  unfold number_row. induction row as [|[k a] row IH]; intros H.
  - exists []. simpl. auto.
  - destruct (H k a (or_introl eq_refl)) as [b Hb].
    destruct IH as (row' & E & El & IH); [intros k' a' H'; apply (H k' a'); right; auto|].
    exists ((k, b) :: row'). cbn [mapM fst snd]. rewrite Hb. cbn [bind]. rewrite E. cbn [bind]. split; [auto|].
    split; [simpl; auto|]. intros k'. cbn [aget]. destruct (keq k' k); [rewrite Hb; auto|apply IH].
Qed.
Lemma number_table_ok {A B} (ix : state -> option nat) (f : A -> res B) (t : list (state * A)) :
  NoDup (map fst t) -> (forall st a, In (st, a) t -> exists i b, ix st = Some i /\ f a = Ok b) ->
  (forall st st' i, ix st = Some i -> ix st' = Some i -> st = st') ->
  exists t', number_table ix f t = Ok t' /\
    (forall st i, ix st = Some i -> aget eqb i t' = match aget list_eqb st t with
                                                  | Some a => match f a with Ok b => Some b | _ => None end
                                                  | None => None
                                                  end) /\
    forall i b, aget eqb i t' = Some b -> exists st, ix st = Some i.
Proof.
  intros Hnd H Hinj. unfold number_table. induction t as [|[s a] t IH].
  - exists []. simpl. split; [auto|]. split; [auto|]. discriminate.
  - simpl in Hnd. apply NoDup_cons_iff in Hnd as [Hs Hnd]. destruct (H s a (or_introl eq_refl)) as (i & b & Hi & Hb).
    destruct (IH Hnd) as (t' & E & IH' & IHk); [intros st' a' H'; apply H; right; auto|].
    exists ((i, b) :: t'). cbn [mapM fst snd]. rewrite Hi. cbn [of_opt bind]. rewrite Hb. cbn [bind]. rewrite E. cbn [bind].
    split; [auto|]. split.
    2:{ intros j b' Hj. cbn [aget] in Hj. destruct (eqb j i) eqn:Ej; [apply eqb_eq in Ej; subst j; eauto|eauto]. }
    intros st j Hj. cbn [aget]. destruct (eqb j i) eqn:Ej.
    + apply eqb_eq in Ej. subst j. rewrite (Hinj _ _ _ Hj Hi). rewrite list_eqb_refl, Hb. reflexivity.
    + replace (list_eqb st s) with false; [apply IH'; auto|]. symmetry. destruct (list_eqb st s) eqn:E0; [|auto].
      apply list_eqb_eq in E0. subst. rewrite Hi in Hj. injection Hj as ->. rewrite eqb_refl in Ej. discriminate.
Qed.

(** ** calc_error_rules *)
Section Errors.
  Variable rs : list rule.
  Definition err_item (l : list item) (k : nat) : Prop :=
    exists p la r, In (mk_item k p la) l /\ nth_error rs k = Some r /\ nth_error (r_rhs r) p = Some (TM TErr).

  Lemma error_items_spec l : forall u, Forall (wf_item rs) l ->
    exists u', foldM (error_item rs) l u = Ok u' /\ forall k, In k u' <-> In k u \/ err_item l k.
  Proof.
    induction l as [|it l IH]; intros u Hw.
    - exists u. simpl. split; [auto|]. intros k. split; [auto|]. intros [H|(p & la & r & [] & _)]; auto.
    - apply Forall_cons_iff in Hw as [(r & Hr & _) Hw].
      assert (Hcons : forall k, err_item (it :: l) k <-> (k = i_rule it /\ nth_error (r_rhs r) (i_pos it) = Some (TM TErr)) \/ err_item l k).
      { intros k. split.
        - intros (p & la & r' & [H1|H1] & H2 & H3); [|right; exists p, la, r'; auto]. subst it. simpl in *. left. split; [auto|]. congruence.
        - intros [[-> H]|(p & la & r' & H1 & H2)].
          + exists (i_pos it), (i_la it), r. split; [left; destruct it; auto|auto].
          + exists p, la, r'. split; [right; auto|auto]. }
      assert (Ei : error_item rs u it = Ok (match nth_error (r_rhs r) (i_pos it) with Some (TM TErr) => ins (i_rule it) u | _ => u end)).
      { unfold error_item. rewrite Hr. cbn [of_opt bind]. destruct (nth_error (r_rhs r) (i_pos it)) as [[n|[t| |]]|]; reflexivity. }
      cbn [foldM]. rewrite Ei. cbn [bind].
      destruct (IH (match nth_error (r_rhs r) (i_pos it) with Some (TM TErr) => ins (i_rule it) u | _ => u end) Hw) as (u' & E & Hu).
      exists u'. split; [auto|]. intros k. rewrite Hu, Hcons.
      destruct (nth_error (r_rhs r) (i_pos it)) as [[n|[t| |]]|]; try rewrite In_ins; intuition congruence.
  Qed.

  Lemma error_rules_fold (l : list (state * nat)) : forall m, Forall (fun si => Forall (wf_item rs) (fst si)) l -> NoDup (map snd l) ->
    (forall i, In i (map snd l) -> aget eqb i m = None) ->
    exists m', foldM (error_state rs) l m = Ok m' /\
      (forall i, ~ In i (map snd l) -> aget eqb i m' = aget eqb i m) /\
      forall st i, In (st, i) l -> match aget eqb i m' with
                                  | Some ks => ks <> [] /\ forall k, In k ks <-> err_item st k
                                  | None => forall k, ~ err_item st k
                                  end.
  Proof.
    induction l as [|[st i] l IH]; intros m Hw Hnd Hm.
    - exists m. simpl. split; [auto|]. split; [auto|]. intros st i [].
    - apply Forall_cons_iff in Hw as [Hw1 Hw]. simpl in Hw1, Hnd. apply NoDup_cons_iff in Hnd as [Hi Hnd].
      destruct (error_items_spec st [] Hw1) as (u & Eu & Hu).
      set (m1 := match u with [] => m | _ => aset eqb i u m end).
      assert (Es : error_state rs m (st, i) = Ok m1).
      { unfold error_state. cbn [fst snd]. rewrite Eu. cbn [bind]. unfold m1. destruct u; reflexivity. }
      assert (Hm1 : forall j, j <> i -> aget eqb j m1 = aget eqb j m).
      { intros j Hj. unfold m1. destruct u; [auto|]. rewrite (aget_aset eqb eqb_eq).
        replace (eqb j i) with false; [auto|symmetry; apply eqb_neq; auto]. }
      destruct (IH m1 Hw Hnd) as (m' & E' & A & B).
      + intros j Hj. rewrite Hm1; [apply Hm; right; auto|]. intros ->. auto.
      + exists m'. cbn [foldM]. rewrite Es. cbn [bind]. split; [auto|]. split.
        * intros j Hj. simpl in Hj. rewrite A by tauto. apply Hm1. intros ->. tauto.
        * intros s j [Hj|Hj]; [|apply B; auto]. injection Hj as -> ->. rewrite (A j Hi).
          unfold m1. destruct u as [|x u].
          -- rewrite (Hm j (or_introl eq_refl)). intros k Hk. assert (In k []) by (apply Hu; auto). auto.
          -- rewrite (aget_aset eqb eqb_eq), eqb_refl. split; [discriminate|]. intros k. rewrite Hu. simpl. tauto.
  Qed.
End Errors.

Lemma In_enum' {A} (l : list A) k (x : A) : In (x, k) (combine l (seq 0 (length l))) <-> nth_error l k = Some x.
Proof.
  rewrite <- In_enum. generalize (seq 0 (length l)). intros n. revert n. induction l as [|a l IH]; intros [|b n]; simpl; try tauto.
  rewrite IH. split; intros [H|H]; auto; left; congruence.
Qed.
Lemma map_snd_enum {A} (l : list A) : map snd (combine l (seq 0 (length l))) = seq 0 (length l).
Proof. generalize 0. induction l as [|a l IH]; simpl; intros b; [auto|]. rewrite IH. reflexivity. Qed.

(** ** start_symbol *)
Lemma find_first {A} (f : A -> bool) l x : find f l = Some x -> In x l /\ f x = true.
Proof. apply find_some. Qed.
Lemma nonterminals_spec rs n : In n (nonterminals rs) <-> exists r, In r rs /\ (r_lhs r = n \/ In (NT n) (r_rhs r)).
Proof.
  unfold nonterminals.
  assert (G : forall s, In n (fold_left (fun s r => ins_all (sym_nts (r_rhs r)) (ins (r_lhs r) s)) rs s) <->
              In n s \/ exists r, In r rs /\ (r_lhs r = n \/ In (NT n) (r_rhs r))).
  { induction rs as [|r l IH]; simpl; intros s.
    - split; [auto|]. intros [H|(r & [] & _)]; auto.
    - rewrite IH, In_ins_all, In_ins.
      assert (Hs : In n (sym_nts (r_rhs r)) <-> In (NT n) (r_rhs r)).
      { unfold sym_nts. rewrite in_flat_map. split.
        - intros (x & Hx & H). destruct x as [m|t]; [|destruct H]. destruct H as [->|[]]. auto.
        - intros H. exists (NT n). simpl. auto. }
      rewrite Hs. split.
      + intros [[H|[->|H]]|(r' & H1 & H2)]; [right; exists r; auto|right; exists r; auto|auto|right; exists r'; auto].
      + intros [H|(r' & [<-|H1] & [H2|H2])]; auto; right; exists r'; auto. }
  rewrite G. simpl. tauto.
Qed.
Lemma start_symbol_ok rs : exists ss, start_symbol rs = Ok ss /\ ~ In ss (nonterminals rs) /\ forall i, i < ss -> In i (nonterminals rs).
Proof.
  unfold start_symbol. set (nts := nonterminals rs).
  destruct (find (fun i => negb (mem i nts)) (seq 0 (S (length nts)))) as [ss|] eqn:E.
  - exists ss. split; [reflexivity|]. apply find_some in E as E'. destruct E' as [_ E'].
    apply negb_true_iff, mem_nIn in E'. split; [auto|].
    assert (G : forall n b, find (fun i => negb (mem i nts)) (seq b n) = Some ss -> forall i, b <= i < ss -> In i nts).
    { induction n as [|n IH]; simpl; intros b H i Hi; [discriminate|]. destruct (mem b nts) eqn:Eb; simpl in H.
      - apply mem_In in Eb. destruct (Nat.eq_dec i b) as [->|Hn]; [auto|]. apply (IH (S b)); auto. lia.
      - injection H as <-. lia. }
    intros i Hi. apply (G _ 0 E). lia.
  - exfalso. pose proof (find_none _ _ E) as H.
    assert (Hin : incl (seq 0 (S (length nts))) nts).
    { intros i Hi. specialize (H i Hi). simpl in H. apply negb_false_iff, mem_In in H. auto. }
    apply NoDup_incl_length in Hin; [|apply seq_NoDup]. rewrite seq_length in Hin. lia.
Qed.
