(** * Operator tables: the grammar has no conflicts (proofs) *)
From Coq Require Import List Arith Lia Bool.
From Verif Require Import Lib Grammar LrModel LrSpec LrSets ParseModel Trees ParseSpec GramFacts ParseInv ParseComplete ParseTop Lr1Proofs OpSpec.
Import ListNotations.

Section Free.
  Context {N T E : Type} (tb : table N T E).
  Notation levels := (tb_levels tb).
  Let n := length levels.
  Let s := table_syntax tb.

  Definition op (i : nat) (lv : level N T E) (t : nat) : Prop := nth_error levels i = Some lv /\ In t (map fst (lv_ops lv)).
  Definition op_rhs (f : fixity) (i t : nat) : list sym :=
    match f with
    | InfixLeft  => [NT i; TM (TSym t); NT (S i)]
    | InfixRight => [NT (S i); TM (TSym t); NT i]
    | InfixNone  => [NT (S i); TM (TSym t); NT (S i)]
    | Prefix     => [TM (TSym t); NT i]
    | Postfix    => [NT i; TM (TSym t)]
    end.
  Inductive shape : rule -> Prop :=
  | sh_op i lv t : op i lv t -> shape (mk_rule i (op_rhs (lv_fix lv) i t))
  | sh_pass i lv : nth_error levels i = Some lv -> shape (mk_rule i [NT (S i)])
  | sh_atom t : In t (map fst (tb_operands tb)) -> shape (mk_rule n [TM (TSym t)])
  | sh_par : shape (mk_rule n [TM (TSym (tb_open tb)); NT 0; TM (TSym (tb_close tb))]).

  Lemma raw_op f i t (g : reducer N T E) : cr_rule (rule_new_raw i (op_symbols f i t) g) = mk_rule i (op_rhs f i t).
  Proof. destruct f; reflexivity. Qed.
  Lemma levels_in (l : list (level N T E)) : forall i (c : crule N T E), In c (levels_rules i l) <->
    exists j lv, nth_error l j = Some lv /\
      ((exists o, In o (lv_ops lv) /\ c = rule_new_raw (i + j) (op_symbols (lv_fix lv) (i + j) (fst o)) (snd o)) \/ c = rule_new_raw (i + j) [NonTerminal (S (i + j))] (lv_pass lv)).
  Proof.
    induction l as [|lv l IH]; intros i c.
    - simpl. split; [tauto|]. intros (j & lv & Hj & _). destruct j; discriminate.
    - cbn [levels_rules]. rewrite in_app_iff, IH. unfold level_rules. rewrite in_app_iff, in_map_iff. split.
      + intros [[(o & <- & Ho)|[<-|[]]]|(j & lv' & Hj & Hc)].
        * exists 0, lv. rewrite Nat.add_0_r. split; auto. left. eauto.
        * exists 0, lv. rewrite Nat.add_0_r. split; auto.
        * exists (S j), lv'. rewrite <- plus_n_Sm. auto.
      + intros ([|j] & lv' & Hj & Hc).
        * injection Hj as <-. rewrite Nat.add_0_r in Hc. left. destruct Hc as [(o & Ho & ->)| ->]; [left; eauto|right; left; auto].
        * right. exists j, lv'. rewrite <- plus_n_Sm in Hc. auto.
  Qed.
  Lemma rules_in (c : crule N T E) : In c (sx_rules s) <->
    (exists i lv o, nth_error levels i = Some lv /\ In o (lv_ops lv) /\ c = rule_new_raw i (op_symbols (lv_fix lv) i (fst o)) (snd o)) \/
    (exists i lv, nth_error levels i = Some lv /\ c = rule_new_raw i [NonTerminal (S i)] (lv_pass lv)) \/
    (exists o, In o (tb_operands tb) /\ c = rule_new_raw n [Terminal (fst o)] (snd o)) \/
    c = rule_new_raw n [Terminal (tb_open tb); NonTerminal 0; Terminal (tb_close tb)] (tb_brackets tb).
  Proof.
    unfold s, table_syntax. cbn [sx_rules]. rewrite !in_app_iff, levels_in, in_map_iff. fold n. simpl. split.
    - intros [(j & lv & Hj & [(o & Ho & ->)| ->])|[(o & <- & Ho)|[<-|[]]]]; eauto 10.
    - intros [(i & lv & o & Hi & Ho & ->)|[(i & lv & Hi & ->)|[(o & Ho & ->)| ->]]]; eauto 10.
  Qed.
  Lemma gram_shape r : In r (gram s) <-> shape r.
  Proof.
    unfold gram. rewrite in_map_iff. split.
    - intros (c & <- & Hc). apply rules_in in Hc as [(i & lv & o & Hi & Ho & ->)|[(i & lv & Hi & ->)|[(o & Ho & ->)| ->]]].
      + rewrite raw_op. constructor. split; auto. apply in_map. auto.
      + econstructor; eauto.
      + cbn. constructor. apply in_map. auto.
      + constructor.
    - intros [i lv t [Hi Ht]|i lv Hi|t Ht|].
      + apply in_map_iff in Ht as (o & <- & Ho). eexists. split; [apply raw_op|]. apply rules_in. left. exists i, lv, o. split; [exact Hi|]. split; [exact Ho|]. reflexivity.
      + exists (rule_new_raw i [NonTerminal (S i)] (lv_pass lv)). split; [reflexivity|]. apply rules_in. right. left. eauto.
      + apply in_map_iff in Ht as (o & <- & Ho). exists (rule_new_raw n [Terminal (fst o)] (snd o)). split; [reflexivity|]. apply rules_in. eauto 10.
      + eexists. split; [|apply rules_in; right; right; right; reflexivity]. reflexivity.
  Qed.

  Hypothesis Htb : proper_table tb.
  Lemma nodup_flat {A B} (f : A -> list B) l : NoDup (flat_map f l) ->
    (forall i j a b x, nth_error l i = Some a -> nth_error l j = Some b -> In x (f a) -> In x (f b) -> i = j) /\ (forall a, In a l -> NoDup (f a)).
  Proof.
    induction l as [|a l IH]; simpl; intros H.
    - split; [|tauto]. intros [|i] j a b x Hi; discriminate.
    - assert (Hd : forall x, In x (f a) -> ~ In x (flat_map f l)).
      { intros x Hx Hy. apply in_split in Hx as (l1 & l2 & E0). rewrite E0 in H. rewrite <- app_assoc in H. simpl in H. apply NoDup_remove_2 in H. apply H. rewrite !in_app_iff. auto. }
      assert (H1 : NoDup (f a)). { clear - H. induction (f a) as [|y z IHz]; [constructor|]. simpl in H. inversion H; subst. constructor; auto. rewrite in_app_iff in *. tauto. }
      assert (H2 : NoDup (flat_map f l)). { clear - H. induction (f a) as [|y z IHz]; auto. simpl in H. inversion H; subst. auto. }
      destruct (IH H2) as [IHa IHb]. split.
      + intros [|i] [|j] a1 b1 x Hi Hj Ha Hb; auto; simpl in Hi, Hj.
        * injection Hi as ->. exfalso. apply (Hd x Ha). apply in_flat_map. exists b1. split; auto. eapply nth_error_In; eauto.
        * injection Hj as ->. exfalso. apply (Hd x Hb). apply in_flat_map. exists a1. split; auto. eapply nth_error_In; eauto.
        * f_equal. eapply IHa; eauto.
      + intros b [->|Hb]; auto.
  Qed.
  Lemma op_unique i j lv lv' t : op i lv t -> op j lv' t -> is_prefix (lv_fix lv) = is_prefix (lv_fix lv') -> i = j /\ lv = lv'.
  Proof.
    intros [Hi Ht] [Hj Ht'] Hp. assert (i = j).
    { destruct Htb as (H1 & H2 & _). destruct (is_prefix (lv_fix lv)) eqn:Ef.
      - inversion H1 as [|? ? _ H3]; subst. assert (H4 : NoDup (ops_where is_prefix tb)).
        { clear - H3. induction (map fst (tb_operands tb)); auto. simpl in H3. inversion H3; auto. }
        apply (proj1 (nodup_flat _ _ H4) i j lv lv' t Hi Hj); [rewrite Ef; auto|rewrite <- Hp; auto].
      - inversion H2 as [|? ? _ H3]; subst. apply (proj1 (nodup_flat _ _ H3) i j lv lv' t Hi Hj); [rewrite Ef; simpl; auto|rewrite <- Hp; simpl; auto]. }
    subst j. split; auto. congruence.
  Qed.
  Lemma op_where i lv t p : op i lv t -> p (lv_fix lv) = true -> In t (ops_where p tb).
  Proof. intros [Hi Ht] Hp. unfold ops_where. apply in_flat_map. exists lv. split; [eapply nth_error_In; eauto|]. rewrite Hp. auto. Qed.
  Lemma op_close i lv : op i lv (tb_close tb) -> is_prefix (lv_fix lv) = true.
  Proof.
    intros H. destruct (is_prefix (lv_fix lv)) eqn:Ef; auto. destruct Htb as (_ & H2 & _). inversion H2 as [|? ? H3 _]; subst. exfalso. apply H3. eapply op_where; eauto. rewrite Ef. auto.
  Qed.
  Lemma op_open i lv : op i lv (tb_open tb) -> is_prefix (lv_fix lv) = false.
  Proof.
    intros H. destruct (is_prefix (lv_fix lv)) eqn:Ef; auto. destruct Htb as (H1 & _ & _). inversion H1 as [|? ? H3 _]; subst. exfalso. apply H3. apply in_or_app. right. eapply op_where; eauto.
  Qed.
  Lemma op_atom i lv t : op i lv t -> In t (map fst (tb_operands tb)) -> is_prefix (lv_fix lv) = false.
  Proof.
    intros H Ht. destruct (is_prefix (lv_fix lv)) eqn:Ef; auto. destruct Htb as (H1 & _ & _). inversion H1 as [|? ? _ H3]; subst. exfalso. apply (op_where _ _ _ is_prefix H) in Ef.
    apply in_split in Ht as (l1 & l2 & E0). rewrite E0, <- app_assoc in H3. simpl in H3. apply NoDup_remove_2 in H3. apply H3. rewrite !in_app_iff. auto.
  Qed.
  Lemma open_atom : ~ In (tb_open tb) (map fst (tb_operands tb)).
  Proof. destruct Htb as (H1 & _ & _). inversion H1 as [|? ? H3 _]; subst. rewrite in_app_iff in H3. tauto. Qed.
  Lemma atoms_nodup : NoDup (map fst (tb_operands tb)).
  Proof.
    destruct Htb as (H1 & _ & _). inversion H1 as [|? ? _ H3]; subst. revert H3. generalize (map fst (tb_operands tb)) as l. intros l. induction l as [|x l IH]; simpl; [constructor|].
    intros H. inversion H; subst. constructor; auto. rewrite in_app_iff in *. tauto.
  Qed.
  Lemma ops_nodup i lv : nth_error levels i = Some lv -> NoDup (map fst (lv_ops lv)).
  Proof.
    intros Hi. apply nth_error_In in Hi. destruct Htb as (H1 & H2 & _). destruct (is_prefix (lv_fix lv)) eqn:Ef.
    - inversion H1 as [|? ? _ H3]; subst. assert (H4 : NoDup (ops_where is_prefix tb)).
      { clear - H3. induction (map fst (tb_operands tb)); auto. simpl in H3. inversion H3; auto. }
      pose proof (proj2 (nodup_flat _ _ H4) lv Hi) as H5. simpl in H5. rewrite Ef in H5. auto.
    - inversion H2 as [|? ? _ H3]; subst. pose proof (proj2 (nodup_flat _ _ H3) lv Hi) as H5. simpl in H5. rewrite Ef in H5. auto.
  Qed.

  (** what may follow an expression of level [i] *)
  Inductive may (i : nat) : term -> Prop :=
  | may_eoi : may i TEoi
  | may_close : may i (TSym (tb_close tb))
  | may_op j lv t : op j lv t -> is_prefix (lv_fix lv) = false -> j < i \/ (j = i /\ (lv_fix lv = InfixLeft \/ lv_fix lv = Postfix)) -> may i (TSym t).
  Lemma may_up i t : may i t -> may (S i) t.
  Proof. intros [| |j lv u H1 H2 H3]; [constructor|constructor|]. eapply may_op; eauto. left. lia. Qed.

  (** [opens g m o]: behind [g] an expression of level [m] is read, because of the operator [o] *)
  Definition op_next (f : fixity) (i : nat) : nat := match f with InfixLeft | InfixNone => S i | _ => i end.
  Inductive opens : list sym -> nat -> option (nat * level N T E * nat) -> Prop :=
  | opens_nil : opens [] 0 None
  | opens_infix g m o i lv t : opens g m o -> m <= i -> op i lv t -> is_infix (lv_fix lv) = true -> opens (g ++ firstn 2 (op_rhs (lv_fix lv) i t)) (op_next (lv_fix lv) i) (Some (i, lv, t))
  | opens_prefix g m o i lv t : opens g m o -> m <= i -> op i lv t -> is_prefix (lv_fix lv) = true -> opens (g ++ [TM (TSym t)]) i (Some (i, lv, t))
  | opens_bracket g m o : opens g m o -> opens (g ++ [TM (TSym (tb_open tb))]) 0 None.
  Lemma opens_nt g m o h A : opens g m o -> g <> h ++ [NT A].
  Proof.
    intros [|g0 m0 o0 i lv t _ _ _ Hf|g0 m0 o0 i lv t _ _ _ _|g0 m0 o0 _] E0.
    - destruct h; discriminate.
    - destruct (lv_fix lv); try discriminate; cbn in E0; change (?a :: ?b :: []) with ([a] ++ [b]) in E0; rewrite app_assoc in E0; apply app_inj_tail in E0 as [_ E0]; discriminate.
    - apply app_inj_tail in E0 as [_ E0]. discriminate.
    - apply app_inj_tail in E0 as [_ E0]. discriminate.
  Qed.
  Lemma infix_two f i t : is_infix f = true -> exists A, firstn 2 (op_rhs f i t) = [NT A; TM (TSym t)].
  Proof. destruct f; try discriminate; intros _; eexists; reflexivity. Qed.
  Lemma infix_prefix f : is_infix f = true -> is_prefix f = false.
  Proof. destruct f; auto; discriminate. Qed.
  (** the level is determined by the last symbols *)
  Lemma opens_unique g m m' o o' : opens g m o -> opens g m' o' -> m = m' /\ o = o'.
  Proof.
    assert (Tl : forall (g1 g2 : list sym) a b c, g1 ++ [a; b] = g2 ++ [c] -> b = c /\ g2 = g1 ++ [a]).
    { intros g1 g2 a b c E0. change [a; b] with ([a] ++ [b]) in E0. rewrite app_assoc in E0. apply app_inj_tail in E0 as [E0 ->]. auto. }
    assert (G : forall g1 g2, opens g1 m o -> opens g2 m' o' -> g1 = g2 -> m = m' /\ o = o'); [|intros; eapply G; eauto].
    intros g0 g0' H1 H2. destruct H1 as [|g1 m1 o1 i1 lv1 t1 A1 A2 A3 A4|g1 m1 o1 i1 lv1 t1 A1 A2 A3 A4|g1 m1 o1 A1], H2 as [|g2 m2 o2 i2 lv2 t2 B1 B2 B3 B4|g2 m2 o2 i2 lv2 t2 B1 B2 B3 B4|g2 m2 o2 B1];
      try (destruct (infix_two _ i1 t1 A4) as [A EA]; rewrite EA); try (destruct (infix_two _ i2 t2 B4) as [B EB]; rewrite EB); intros E0; auto;
      try (destruct g1; discriminate E0); try (destruct g2; discriminate E0).
    - change [NT B; TM (TSym t2)] with ([NT B] ++ [TM (TSym t2)]) in E0. rewrite app_assoc in E0. apply Tl in E0 as [E0 _]. injection E0 as ->.
      destruct (op_unique _ _ _ _ _ A3 B3) as [-> ->]; [rewrite !infix_prefix; auto|]. split; reflexivity.
    - apply Tl in E0 as [_ ->]. exfalso. exact (opens_nt _ _ _ _ _ B1 eq_refl).
    - apply Tl in E0 as [_ ->]. exfalso. exact (opens_nt _ _ _ _ _ B1 eq_refl).
    - symmetry in E0. apply Tl in E0 as [_ ->]. exfalso. exact (opens_nt _ _ _ _ _ A1 eq_refl).
    - apply app_inj_tail in E0 as [_ E0]. injection E0 as ->. destruct (op_unique _ _ _ _ _ A3 B3) as [-> ->]; auto. congruence.
    - apply app_inj_tail in E0 as [_ E0]. injection E0 as ->. apply op_open in A3. congruence.
    - symmetry in E0. apply Tl in E0 as [_ ->]. exfalso. exact (opens_nt _ _ _ _ _ A1 eq_refl).
    - apply app_inj_tail in E0 as [_ E0]. injection E0 as <-. apply op_open in B3. congruence.
  Qed.

  Variable ss : nat.
  Hypothesis Hss : ~ In ss (nonterminals (gram s)).
  Let rs := augment (gram s) 0 ss.
  Let sr := length (gram s).

  Lemma first_tm t l u : firsts rs (TM t :: l) u -> u = t.
  Proof. intros H. apply firsts_firstl in H. inversion H as [| |X l0 t0 Hd _]; subst; auto. inversion Hd. Qed.
  Lemma start_lhs : exists r, In r (gram s) /\ r_lhs r = 0.
  Proof.
    destruct (nth_error levels 0) as [lv|] eqn:El.
    - eexists. split; [apply gram_shape; apply (sh_pass 0 lv El)|]. reflexivity.
    - apply nth_error_None in El. eexists. split; [apply gram_shape; apply sh_par|]. simpl. unfold n. lia.
  Qed.
  Lemma rs_nth k r : nth_error rs k = Some r -> (k = sr /\ r = mk_rule ss [NT 0]) \/ (k < sr /\ shape r /\ r_lhs r <> ss /\ ~ In (NT ss) (r_rhs r)).
  Proof.
    intros H. unfold rs, augment in H. destruct (Nat.lt_ge_cases k (length (gram s))) as [Hk|Hk].
    - right. rewrite nth_error_app1 in H by auto. apply nth_error_In in H. split; auto. split; [apply gram_shape; auto|]. split; [apply (ss_lhs _ _ Hss); auto|apply (ss_rhs _ _ Hss); auto].
    - left. rewrite nth_error_app2 in H by auto. destruct (k - length (gram s)) as [|[|d]] eqn:Ed; try discriminate. simpl in H. injection H as <-. split; auto. unfold sr. lia.
  Qed.

  Definition item_inv (g : list sym) (k p : nat) (la : term) : Prop :=
    (k = sr /\ la = TEoi /\ g = firstn p [NT 0]) \/
    (exists r g0 m o, k < sr /\ nth_error rs k = Some r /\ shape r /\ g = g0 ++ firstn p (r_rhs r) /\ opens g0 m o /\ m <= r_lhs r /\ may (r_lhs r) la).
  Lemma item_ok g it : valid rs sr g it -> item_inv g (i_rule it) (i_pos it) (i_la it).
  Proof.
    induction 1 as [|g k p la r X Hv IH Hr HX|g k p la r A k' r' t Hv IH Hr HA Hr' Hl Hf]; cbn [i_rule i_pos i_la] in *.
    - left. auto.
    - destruct IH as [(-> & -> & ->)|(r0 & g0 & m & o & H1 & H2 & H3 & -> & H4 & H5 & H6)].
      + left. split; auto. split; auto. destruct (rs_nth _ _ Hr) as [(_ & ->)|(H & _)]; [|unfold sr in H; lia]. cbn [r_rhs] in HX. symmetry. apply firstn_next. auto.
      + assert (r0 = r) by congruence. subst r0. right. exists r, g0, m, o. split; auto. split; auto. split; auto. split; auto. rewrite <- app_assoc. f_equal. symmetry. apply firstn_next. auto.
    - assert (G : exists g0 m o, g = g0 /\ opens g0 m o /\ m <= A /\ may A t /\ A <> ss).
      { destruct IH as [(-> & -> & ->)|(r0 & g0 & m & o & H1 & H2 & H3 & -> & H4 & H5 & H6)].
        - destruct (rs_nth _ _ Hr) as [(_ & ->)|(H & _)]; [|unfold sr in H; lia]. cbn [r_rhs] in *. destruct p as [|[|p]]; try discriminate. injection HA as <-. simpl in Hf. apply first_tm in Hf. subst t.
          exists [], 0, None. split; auto. split; [constructor|]. split; auto. split; [constructor|]. destruct start_lhs as (r1 & Hr1 & E1). rewrite <- E1. apply (ss_lhs _ _ Hss). auto.
        - assert (r0 = r) by congruence. subst r0. destruct (rs_nth _ _ Hr) as [(-> & _)|(_ & _ & _ & Hns)]; [lia|].
          assert (HAs : A <> ss). { intros ->. apply Hns. eapply nth_error_In; eauto. }
          destruct H3 as [i lv u Ho|i lv Hi|u Hu|]; cbn [r_rhs r_lhs] in *.
          + pose proof (opens_infix g0 m o i lv u H4 H5 Ho) as Q1. pose proof (opens_prefix g0 m o i lv u H4 H5 Ho) as Q2.
            pose proof (fun Hj Hx => may_op (S i) i lv u Ho Hj (or_introl Hx)) as Q3. pose proof (fun Hj Hx => may_op i i lv u Ho Hj (or_intror (conj eq_refl Hx))) as Q4. pose proof (may_up _ _ H6) as Q5.
            destruct (lv_fix lv) eqn:Ef; cbn [op_rhs op_next is_infix is_prefix firstn] in *; destruct p as [|[|[|p]]]; cbn [nth_error skipn app firstn] in *; try discriminate HA; try (destruct p; discriminate HA); injection HA as <-; apply first_tm in Hf; subst t; eexists _, _, _; (split; [reflexivity|]); rewrite ?app_nil_r; eauto 10.
          + destruct p as [|[|p]]; try discriminate. injection HA as <-. simpl in Hf. apply first_tm in Hf. subst t. exists g0, m, o. rewrite app_nil_r. split; auto. split; auto. split; [lia|]. split; auto. apply may_up. auto.
          + destruct p as [|[|p]]; discriminate.
          + destruct p as [|[|[|[|p]]]]; try discriminate. injection HA as <-. simpl in Hf. apply first_tm in Hf. subst t. eexists _, _, _. split; [reflexivity|]. split; [eapply opens_bracket; eauto|]. split; auto. split; [constructor|auto]. }
      destruct G as (g0 & m & o & -> & G1 & G2 & G3 & G4). right. destruct (rs_nth _ _ Hr') as [(_ & ->)|(Hk' & Hs' & _ & _)]; [simpl in Hl; congruence|].
      exists r', g0, m, o. subst A. simpl. rewrite app_nil_r. auto 10.
  Qed.

  (** how a string ends behind a complete rule *)
  Inductive ending (t : term) (r : rule) : list sym -> Prop :=
  | end_atom g m o u : opens g m o -> In u (map fst (tb_operands tb)) -> r = mk_rule n [TM (TSym u)] -> ending t r (g ++ [TM (TSym u)])
  | end_par g A : r = mk_rule n [TM (TSym (tb_open tb)); NT 0; TM (TSym (tb_close tb))] -> ending t r ((g ++ [NT A]) ++ [TM (TSym (tb_close tb))])
  | end_post g A i lv u : op i lv u -> lv_fix lv = Postfix -> r = mk_rule i (op_rhs (lv_fix lv) i u) -> ending t r ((g ++ [NT A]) ++ [TM (TSym u)])
  | end_op g i lv u : opens g (op_next (lv_fix lv) i) (Some (i, lv, u)) -> op i lv u -> lv_fix lv <> Postfix -> r = mk_rule i (op_rhs (lv_fix lv) i u) -> may i t ->
      ending t r (g ++ [NT (op_next (lv_fix lv) i)])
  | end_pass g m o i : opens g m o -> m <= i -> r = mk_rule i [NT (S i)] -> may i t -> ending t r (g ++ [NT (S i)]).
  Lemma complete_ending g k t : k <> sr -> complete rs sr g k t -> exists r, nth_error rs k = Some r /\ ending t r g.
  Proof.
    intros Hk (r & Hr & Hv). exists r. split; auto. apply item_ok in Hv. cbn [i_rule i_pos i_la] in Hv. destruct Hv as [(? & _)|(r0 & g0 & m & o & H1 & H2 & H3 & -> & H4 & H5 & H6)]; [tauto|].
    assert (r0 = r) by congruence. subst r0. rewrite firstn_all. destruct H3 as [i lv u Ho|i lv Hi|u Hu|]; cbn [r_rhs r_lhs] in *.
    - pose proof (opens_infix g0 m o i lv u H4 H5 Ho) as Q1. pose proof (opens_prefix g0 m o i lv u H4 H5 Ho) as Q2.
      destruct (lv_fix lv) eqn:Ef; cbn [op_rhs op_next is_infix is_prefix firstn] in *.
      + replace (g0 ++ [NT i; TM (TSym u); NT (S i)]) with ((g0 ++ [NT i; TM (TSym u)]) ++ [NT (op_next (lv_fix lv) i)]) by (rewrite <- app_assoc, Ef; reflexivity).
        apply (end_op t _ _ i lv u); rewrite ?Ef; auto; try discriminate.
      + replace (g0 ++ [NT (S i); TM (TSym u); NT i]) with ((g0 ++ [NT (S i); TM (TSym u)]) ++ [NT (op_next (lv_fix lv) i)]) by (rewrite <- app_assoc, Ef; reflexivity).
        apply (end_op t _ _ i lv u); rewrite ?Ef; auto; try discriminate.
      + replace (g0 ++ [NT (S i); TM (TSym u); NT (S i)]) with ((g0 ++ [NT (S i); TM (TSym u)]) ++ [NT (op_next (lv_fix lv) i)]) by (rewrite <- app_assoc, Ef; reflexivity).
        apply (end_op t _ _ i lv u); rewrite ?Ef; auto; try discriminate.
      + replace (g0 ++ [TM (TSym u); NT i]) with ((g0 ++ [TM (TSym u)]) ++ [NT (op_next (lv_fix lv) i)]) by (rewrite <- app_assoc, Ef; reflexivity).
        apply (end_op t _ _ i lv u); rewrite ?Ef; auto; try discriminate.
      + replace (g0 ++ [NT i; TM (TSym u)]) with ((g0 ++ [NT i]) ++ [TM (TSym u)]) by (rewrite <- app_assoc; reflexivity).
        apply (end_post t _ g0 i i lv u); rewrite ?Ef; auto.
    - eapply end_pass; eauto.
    - eapply end_atom; eauto.
    - replace (g0 ++ [TM (TSym (tb_open tb)); NT 0; TM (TSym (tb_close tb))]) with (((g0 ++ [TM (TSym (tb_open tb))]) ++ [NT 0]) ++ [TM (TSym (tb_close tb))]) by (rewrite <- !app_assoc; reflexivity).
      apply end_par. auto.
  Qed.
  Lemma ending_unique g t r r' : ending t r g -> ending t r' g -> r = r'.
  Proof.
    assert (G : forall g1 g2, ending t r g1 -> ending t r' g2 -> g1 = g2 -> r = r'); [|intros; eapply G; eauto].
    intros g1 g2 H1 H2. destruct H1 as [g1 m1 o1 u1 A1 A2 A3|g1 B1 A3|g1 B1 i1 lv1 u1 A1 A2 A3|g1 i1 lv1 u1 A1 A2 A3 A4 A5|g1 m1 o1 i1 A1 A2 A3 A4],
      H2 as [g2 m2 o2 u2 C1 C2 C3|g2 B2 C3|g2 B2 i2 lv2 u2 C1 C2 C3|g2 i2 lv2 u2 C1 C2 C3 C4 C5|g2 m2 o2 i2 C1 C2 C3 C4]; intros E0; apply app_inj_tail in E0 as [E0 E1]; try discriminate E1; try injection E1 as E1.
    - congruence.
    - exfalso. exact (opens_nt _ _ _ _ _ A1 E0).
    - exfalso. exact (opens_nt _ _ _ _ _ A1 E0).
    - exfalso. symmetry in E0. exact (opens_nt _ _ _ _ _ C1 E0).
    - congruence.
    - subst u2. apply op_close in C1. rewrite C2 in C1. discriminate.
    - exfalso. symmetry in E0. exact (opens_nt _ _ _ _ _ C1 E0).
    - subst u1. apply op_close in A1. rewrite A2 in A1. discriminate.
    - subst u2. destruct (op_unique _ _ _ _ _ A1 C1) as [-> ->]; congruence.
    - subst g2. destruct (opens_unique _ _ _ _ _ A1 C1) as [_ E2]. injection E2 as -> -> ->. congruence.
    - subst g2. destruct (opens_unique _ _ _ _ _ A1 C1) as [E2 _]. lia.
    - subst g2. destruct (opens_unique _ _ _ _ _ A1 C1) as [E2 _]. lia.
    - congruence.
  Qed.
  Lemma no_shift g t r : ending t r g -> ~ wants rs sr g (TM t).
  Proof.
    intros He (k & p & la & r1 & Hv & Hr1 & Hp). apply item_ok in Hv. cbn [i_rule i_pos i_la] in Hv.
    destruct Hv as [(-> & _)|(r0 & g0 & m & o & H1 & H2 & H3 & E0 & H4 & H5 & _)].
    { destruct (rs_nth _ _ Hr1) as [(_ & ->)|(H & _)]; [|unfold sr in H; lia]. destruct p as [|[|p]]; discriminate. }
    assert (r0 = r1) by congruence. subst r0. clear H2 H1 Hr1.
    (* at the start of a rule: no complete rule ends where an operand is expected *)
    assert (Q0 : p = 0 -> False).
    { intros ->. simpl in E0. rewrite app_nil_r in E0. subst g0. clear Hp.
      assert (G : forall g', ending t r g' -> g' = g -> False); [|eapply G; eauto]. intros g' [g1 m1 o1 u1 A1 A2 A3|g1 B1 A3|g1 B1 i1 lv1 u1 A1 A2 A3|g1 i1 lv1 u1 A1 A2 A3 A4 A5|g1 m1 o1 i1 A1 A2 A3 A4] E1.
      - destruct H4 as [|g2 m2 o2 i2 lv2 t2 B1 B2 B3 B4|g2 m2 o2 i2 lv2 t2 B1 B2 B3 B4|g2 m2 o2 B1].
        + destruct g1; discriminate.
        + destruct (infix_two _ i2 t2 B4) as [A EA]. rewrite EA in E1. change [NT A; TM (TSym t2)] with ([NT A] ++ [TM (TSym t2)]) in E1. rewrite app_assoc in E1. apply app_inj_tail in E1 as [E1 _]. exact (opens_nt _ _ _ _ _ A1 E1).
        + apply app_inj_tail in E1 as [_ E1]. injection E1 as ->. rewrite (op_atom _ _ _ B3 A2) in B4. discriminate.
        + apply app_inj_tail in E1 as [_ E1]. injection E1 as ->. exact (open_atom A2).
      - destruct H4 as [|g2 m2 o2 i2 lv2 t2 B1' B2 B3 B4|g2 m2 o2 i2 lv2 t2 B1' B2 B3 B4|g2 m2 o2 B1'].
        + destruct g1; discriminate.
        + destruct (infix_two _ i2 t2 B4) as [A EA]. rewrite EA in E1. change [NT A; TM (TSym t2)] with ([NT A] ++ [TM (TSym t2)]) in E1. rewrite app_assoc in E1. apply app_inj_tail in E1 as [_ E1]. injection E1 as <-.
          apply op_close in B3. rewrite infix_prefix in B3 by auto. discriminate.
        + apply app_inj_tail in E1 as [E1 _]. symmetry in E1. exact (opens_nt _ _ _ _ _ B1' E1).
        + apply app_inj_tail in E1 as [E1 _]. symmetry in E1. exact (opens_nt _ _ _ _ _ B1' E1).
      - destruct H4 as [|g2 m2 o2 i2 lv2 t2 B1' B2 B3 B4|g2 m2 o2 i2 lv2 t2 B1' B2 B3 B4|g2 m2 o2 B1'].
        + destruct g1; discriminate.
        + destruct (infix_two _ i2 t2 B4) as [A EA]. rewrite EA in E1. change [NT A; TM (TSym t2)] with ([NT A] ++ [TM (TSym t2)]) in E1. rewrite app_assoc in E1. apply app_inj_tail in E1 as [_ E1]. injection E1 as <-.
          destruct (op_unique _ _ _ _ _ A1 B3) as [_ E5]; [rewrite A2, (infix_prefix _ B4); reflexivity|]. rewrite <- E5, A2 in B4. discriminate.
        + apply app_inj_tail in E1 as [E1 _]. symmetry in E1. exact (opens_nt _ _ _ _ _ B1' E1).
        + apply app_inj_tail in E1 as [E1 _]. symmetry in E1. exact (opens_nt _ _ _ _ _ B1' E1).
      - symmetry in E1. exact (opens_nt _ _ _ _ _ H4 E1).
      - symmetry in E1. exact (opens_nt _ _ _ _ _ H4 E1). }
    (* behind an expression of level [j]: the decision by the level *)
    assert (Q1 : forall j d lv u, g = g0 ++ [NT j] -> op d lv u -> t = TSym u -> is_prefix (lv_fix lv) = false ->
        (lv_fix lv = InfixLeft \/ lv_fix lv = Postfix) /\ j = d \/ is_infix (lv_fix lv) = true /\ lv_fix lv <> InfixLeft /\ j = S d -> m <= d -> False).
    { intros j d lv u Eg Hop -> Hnp Hj Hm. clear E0. assert (Hlv : forall e, may e (TSym u) -> d < e \/ (d = e /\ (lv_fix lv = InfixLeft \/ lv_fix lv = Postfix))).
      { intros e0 Hmay. inversion Hmay as [|E1|j1 lv1 t1 C1 C2 C3 E1]; subst.
        - apply op_close in Hop. congruence.
        - destruct (op_unique _ _ _ _ _ Hop C1) as [-> ->]; auto. congruence. }
      assert (G : forall g', ending (TSym u) r g' -> g' = g -> False); [|eapply G; eauto]. intros g' He' E1. subst g.
      destruct He' as [g1 m1 o1 u1 A1 A2 A3|g1 B1 A3|g1 B1 i1 lv1 u1 A1 A2 A3|g1 i1 lv1 u1 A1 A2 A3 A4 A5|g1 m1 o1 i1 A1 A2 A3 A4]; apply app_inj_tail in E1 as [E1 E2]; try discriminate E2; injection E2 as E2; subst g1.
      - destruct (opens_unique _ _ _ _ _ A1 H4) as [E3 _]. apply Hlv in A5. assert (Hn : op_next (lv_fix lv1) i1 = i1 \/ op_next (lv_fix lv1) i1 = S i1) by (destruct (lv_fix lv1); simpl; auto).
        destruct Hj as [[Hf ->]|(Hf & Hl & ->)]; [|lia]. destruct A5 as [A5|[-> A5]]; [lia|].
        destruct A2 as [A2 _], Hop as [Hop _]. assert (lv1 = lv) by congruence. subst lv1. rewrite E3 in E2. destruct Hf as [Hf|Hf]; [|congruence]. rewrite Hf in *. simpl in *. lia.
      - apply Hlv in A4. destruct Hj as [[Hf ->]|(Hf & Hl & ->)].
        + lia.
        + destruct A4 as [A4|[_ [A4|A4]]]; [lia|congruence|rewrite A4 in Hf; discriminate]. }
    destruct H3 as [i lv u Ho|i lv Hi|u Hu|]; cbn [r_rhs r_lhs] in *.
    - destruct p as [|p]; [auto|]. destruct (lv_fix lv) eqn:Ef; cbn [op_rhs] in *; destruct p as [|[|p]]; try discriminate Hp; try (destruct p; discriminate Hp); cbn in Hp, E0; injection Hp as <-; eapply (Q1 _ i lv u); eauto; rewrite Ef; auto; right; repeat split; auto; discriminate.
    - destruct p as [|[|p]]; discriminate.
    - destruct p as [|[|p]]; auto; discriminate.
    - destruct p as [|[|[|[|p]]]]; auto; try discriminate. cbn in Hp, E0. injection Hp as <-. subst g.
      assert (G : forall g', ending (TSym (tb_close tb)) r g' -> g' = g0 ++ [TM (TSym (tb_open tb)); NT 0] -> False); [|eapply G; eauto]. intros g' He' E1.
      change [TM (TSym (tb_open tb)); NT 0] with ([TM (TSym (tb_open tb))] ++ [NT 0]) in E1. rewrite app_assoc in E1.
      destruct He' as [g1 m1 o1 u1 A1 A2 A3|g1 B1 A3|g1 B1 i1 lv1 u1 A1 A2 A3|g1 i1 lv1 u1 A1 A2 A3 A4 A5|g1 m1 o1 i1 A1 A2 A3 A4]; apply app_inj_tail in E1 as [E1 E2]; try discriminate E2. subst g1.
      destruct (opens_unique _ _ _ _ _ A1 (opens_bracket _ _ _ H4)) as [_ E3]. discriminate.
  Qed.

  Lemma nodup_app {A} (l1 l2 : list A) : NoDup l1 -> NoDup l2 -> (forall x, In x l1 -> ~ In x l2) -> NoDup (l1 ++ l2).
  Proof.
    induction l1 as [|a l1 IH]; simpl; auto. intros H1 H2 H3. inversion H1; subst. constructor; [|apply IH; auto]. rewrite in_app_iff. intros [H|H]; [auto|]. exact (H3 a (or_introl eq_refl) H).
  Qed.
  Lemma op_rhs_inj f i t t' : op_rhs f i t = op_rhs f i t' -> t = t'.
  Proof. destruct f; simpl; congruence. Qed.
  Lemma nodup_levels (l : list (level N T E)) : forall i, (forall lv, In lv l -> NoDup (map fst (lv_ops lv))) -> NoDup (map cr_rule (levels_rules i l)).
  Proof.
    induction l as [|lv l IH]; intros i H; [constructor|]. cbn [levels_rules]. rewrite map_app. apply nodup_app.
    - unfold level_rules. rewrite map_app, map_map. apply nodup_app.
      + specialize (H lv (or_introl eq_refl)). induction (lv_ops lv) as [|o os IHo]; [constructor|]. cbn [map] in *. inversion H; subst. constructor; auto.
        rewrite in_map_iff. intros (o' & E0 & Ho'). cbv beta in E0. rewrite !raw_op in E0. injection E0 as E0. apply op_rhs_inj in E0. rewrite <- E0 in *. match goal with K : ~ In _ _ |- _ => apply K end. apply in_map. auto.
      + repeat constructor. intros [].
      + intros x Hx [<-|[]]. apply in_map_iff in Hx as (o & E0 & _). rewrite raw_op in E0. injection E0 as E0. destruct (lv_fix lv); discriminate.
    - apply IH. intros lv' Hl. apply H. right. auto.
    - intros x Hx Hy. apply in_map_iff in Hx as (c & <- & Hc), Hy as (c' & E0 & Hc').
      assert (H1 : r_lhs (cr_rule c) = i). { unfold level_rules in Hc. apply in_app_iff in Hc as [Hc|[<-|[]]]; auto. apply in_map_iff in Hc as (o & <- & _). rewrite raw_op. auto. }
      assert (H2 : S i <= r_lhs (cr_rule c')). { apply levels_in in Hc' as (j & lv' & _ & [(o & _ & ->)| ->]); [rewrite raw_op|]; simpl; lia. }
      rewrite E0 in H2. lia.
  Qed.
  Lemma nodup_gram : NoDup (gram s).
  Proof.
    unfold gram, s, table_syntax. cbn [sx_rules]. rewrite !map_app, map_map. fold n.
    assert (Hat : forall x, In x (map (fun o => cr_rule (rule_new_raw n [Terminal (fst o)] (snd o))) (tb_operands tb)) -> exists u, x = mk_rule n [TM (TSym u)]).
    { intros x Hx. apply in_map_iff in Hx as (o & <- & _). eexists. reflexivity. }
    apply nodup_app; [|apply nodup_app|].
    - apply nodup_levels. intros lv Hl. apply In_nth_error in Hl as [i Hi]. eapply ops_nodup; eauto.
    - pose proof atoms_nodup as H. clear Hat. induction (tb_operands tb) as [|o os IHo]; [constructor|]. cbn [map] in *. inversion H; subst. constructor; auto.
      rewrite in_map_iff. intros (o' & E0 & Ho'). cbn in E0. injection E0 as E0. rewrite <- E0 in *. match goal with K : ~ In _ _ |- _ => apply K end. apply in_map. auto.
    - repeat constructor. intros [].
    - intros x Hx [<-|[]]. apply Hat in Hx as [u Hu]. discriminate.
    - intros x Hx Hy. apply in_map_iff in Hx as (c & <- & Hc). apply levels_in in Hc as (j & lv & Hj & Hc).
      assert (Hjn : j < n) by (apply nth_error_Some; congruence). assert (H1 : r_lhs (cr_rule c) = j) by (destruct Hc as [(o & _ & ->)| ->]; [rewrite raw_op|]; reflexivity).
      apply in_app_iff in Hy as [Hy|[Hy|[]]]; [apply Hat in Hy as [u Hy]|]; [rewrite Hy in H1|rewrite <- Hy in H1]; simpl in H1; lia.
  Qed.
  Lemma table_free : conflict_free rs sr.
  Proof.
    intros g k t Hk Hc. destruct (complete_ending _ _ _ Hk Hc) as (r & Hr & He). split; [eapply no_shift; eauto|]. intros k' Hk' Hc'. destruct (complete_ending _ _ _ Hk' Hc') as (r' & Hr' & He').
    rewrite (ending_unique _ _ _ _ He He') in Hr. destruct (rs_nth _ _ Hr) as [(? & _)|(Hlt & _)]; [tauto|]. destruct (rs_nth _ _ Hr') as [(? & _)|(Hlt' & _)]; [tauto|].
    unfold rs, augment in Hr, Hr'. rewrite nth_error_app1 in Hr, Hr' by auto. apply (proj1 (NoDup_nth_error (gram s)) nodup_gram); auto. congruence.
  Qed.
End Free.
