(** * Operator tables: the parser is made, values and expressions *)
From Coq Require Import List Arith Lia Bool.
From Verif Require Import Lib Grammar LrModel LrSpec LrSets LrTop ParseModel Trees ParseSpec GramFacts ParseInv ParseComplete ParseTop ParseMore ParseExamples PropParse PropLr PropRecover StmtSpec ValueProofs OpSpec OpProofs.
Import ListNotations.

Section Top.
  Context {N T E : Type} (nix : N -> nat) (tix : T -> nat) (tb : table N T E).
  Notation levels := (tb_levels tb).
  Notation n := (length (tb_levels tb)).
  Notation s := (table_syntax tb).

  Lemma op_api : api_syntax nix tix s.
  Proof.
    apply Forall_forall. intros c Hc. apply rules_in in Hc as [(i & lv & o & _ & _ & ->)|[(i & lv & _ & ->)|[(o & _ & ->)| ->]]]; constructor.
  Qed.
  Lemma op_error_free : error_free s.
  Proof.
    intros r Hr. apply gram_shape in Hr. destruct Hr as [i lv t _|i lv _|t _|]; cbn [r_rhs]; [destruct (lv_fix lv); cbn [op_rhs]| | |]; cbn [In]; intuition discriminate.
  Qed.
  Lemma level_lt i lv : nth_error levels i = Some lv -> i < n.
  Proof. intros H. apply nth_error_Some. congruence. Qed.
  Lemma op_not_cyclic : ~ cyclic (gram s) (sx_start s).
  Proof.
    apply (ranked_not_cyclic _ (fun i => S n - i)); apply Forall_forall; intros r Hr; apply gram_shape in Hr; destruct Hr as [i lv t [Hi _]|i lv Hi|t _|]; cbn [r_rhs r_lhs].
    - left. exists (TSym t). destruct (lv_fix lv); cbn; auto.
    - right. right. exists (S i). split; auto. apply level_lt in Hi. lia.
    - left. eexists. simpl. eauto.
    - left. eexists. simpl. eauto.
    - destruct (lv_fix lv); discriminate.
    - discriminate.
    - discriminate.
    - discriminate.
  Qed.
  Lemma level_word t : In t (map fst (tb_operands tb)) -> forall d, d <= n -> der (gram s) (NT (n - d)) [TSym t].
  Proof.
    intros Ht. induction d as [|d IH]; intros Hd.
    - rewrite Nat.sub_0_r. change (der (gram s) (NT (r_lhs (mk_rule n [TM (TSym t)]))) [TSym t]). constructor; [apply gram_shape; constructor; auto|]. apply ders_one. constructor.
    - destruct (nth_error levels (n - S d)) as [lv|] eqn:El; [|apply nth_error_None in El; lia].
      change (der (gram s) (NT (r_lhs (mk_rule (n - S d) [NT (S (n - S d))]))) [TSym t]). constructor; [apply gram_shape; econstructor; eauto|]. apply ders_one.
      replace (S (n - S d)) with (n - d) by lia. apply IH. lia.
  Qed.
  Lemma op_productive : proper_table tb -> productive (gram s).
  Proof.
    intros (_ & _ & Hne) r X Hr HX. assert (Ht : exists t, In t (map fst (tb_operands tb))). { destruct (tb_operands tb) as [|o os]; [congruence|]. exists (fst o). simpl. auto. }
    destruct Ht as [t Ht]. assert (HL : forall i, i <= n -> exists w, der (gram s) (NT i) w). { intros i Hi. exists [TSym t]. replace i with (n - (n - i)) by lia. apply level_word; auto. lia. }
    destruct X as [A|u]; [|eexists; constructor]. apply HL. apply gram_shape in Hr. destruct Hr as [i lv u [Hi _]|i lv Hi|u _|]; cbn [r_rhs] in HX.
    - apply level_lt in Hi. destruct (lv_fix lv); cbn in HX; repeat destruct HX as [HX|HX]; try discriminate HX; try injection HX as <-; try lia; destruct HX.
    - apply level_lt in Hi. destruct HX as [HX|[]]. injection HX as <-. lia.
    - destruct HX as [HX|[]]. discriminate.
    - destruct HX as [HX|[HX|[HX|[]]]]; try discriminate HX. injection HX as <-. lia.
  Qed.
  Lemma op_made e : proper_table tb -> lr_env_ok e -> exists P, makes e s P [].
  Proof.
    intros Htb He. destruct (C27_no_panic_when_defined N T E nix tix e s He op_api) as (P & ws & Hmk).
    - exact (start_lhs tb).
    - intros r A Hr HA. apply gram_shape in Hr. assert (HAn : A <= n).
      { destruct Hr as [i lv u [Hi _]|i lv Hi|u _|]; cbn [r_rhs] in HA.
        - apply level_lt in Hi. destruct (lv_fix lv); cbn in HA; repeat destruct HA as [HA|HA]; try discriminate HA; try injection HA as <-; try lia; destruct HA.
        - apply level_lt in Hi. destruct HA as [HA|[]]. injection HA as <-. lia.
        - destruct HA as [HA|[]]. discriminate.
        - destruct HA as [HA|[HA|[HA|[]]]]; try discriminate HA. injection HA as <-. lia. }
      destruct (nth_error levels A) as [lv|] eqn:El.
      + eexists. split; [apply gram_shape; eapply sh_pass; eauto|]. reflexivity.
      + apply nth_error_None in El. eexists. split; [apply gram_shape; apply sh_par|]. simpl. lia.
    - exists P. destruct (makes_made nix tix e s P ws op_api Hmk) as [ss Hm]. replace (@nil warning) with ws; auto. apply (md_free _ _ _ _ Hm). apply (table_free tb Htb ss (md_fresh _ _ _ _ Hm)).
  Qed.

  (** ** Values and expressions *)
  Definition val_of (X : sym) (u : list T) (a : arg N T) : Prop :=
    match X with
    | NT i => exists v x j, a = NonTerminal v /\ flat x = u /\ means tix tb x i v /\ grouped tix tb x j /\ i <= j
    | TM t => exists x, u = [x] /\ a = Terminal x /\ t = TSym (tix x)
    end.
  Fixpoint vals_of (l : list sym) (u : list T) (args : list (arg N T)) : Prop :=
    match l with
    | [] => u = [] /\ args = []
    | X :: l' => exists u1 u2 a args', u = u1 ++ u2 /\ args = a :: args' /\ val_of X u1 a /\ vals_of l' u2 args'
    end.
  Lemma value_expr : (forall X u a, value tix (sx_rules s) X u a -> val_of X u a) /\ (forall l u args, values tix (sx_rules s) l u args -> vals_of l u args).
  Proof.
    apply value_values_ind.
    - intros x. exists x. auto.
    - intros c u args v Hc _ IH Hv. apply rules_in in Hc as [(i & lv & o & Hi & Ho & ->)|[(i & lv & Hi & ->)|[(o & Ho & ->)| ->]]].
      + rewrite raw_op in *. cbn [r_lhs r_rhs val_of] in *. change (snd o args = GOk v) in Hv.
        assert (Hop : forall x, TSym (fst o) = TSym (tix x) -> operator tix tb (lv_fix lv) i x (snd o)). { intros x Hx. injection Hx as Hx. exists lv. split; auto. split; auto. rewrite <- Hx. destruct o; auto. }
        destruct (lv_fix lv) eqn:Ef; cbn [op_rhs vals_of val_of] in IH.
        * destruct IH as (u1 & u2 & a1 & ar1 & -> & -> & (v1 & x1 & j1 & -> & <- & M1 & G1 & L1) & u3 & u4 & a2 & ar2 & -> & -> & (x & -> & -> & Hx) & u5 & u6 & a3 & ar3 & -> & -> & (v3 & x3 & j3 & -> & <- & M3 & G3 & L3) & -> & ->).
          rewrite app_nil_r in *. exists v, (Infix x1 x x3), i. split; auto. split; auto. split; [eapply means_infix with (f := InfixLeft); eauto|]. split; auto. eapply grouped_left; eauto.
        * destruct IH as (u1 & u2 & a1 & ar1 & -> & -> & (v1 & x1 & j1 & -> & <- & M1 & G1 & L1) & u3 & u4 & a2 & ar2 & -> & -> & (x & -> & -> & Hx) & u5 & u6 & a3 & ar3 & -> & -> & (v3 & x3 & j3 & -> & <- & M3 & G3 & L3) & -> & ->).
          rewrite app_nil_r in *. exists v, (Infix x1 x x3), i. split; auto. split; auto. split; [eapply means_infix with (f := InfixRight); eauto|]. split; auto. eapply grouped_right; eauto.
        * destruct IH as (u1 & u2 & a1 & ar1 & -> & -> & (v1 & x1 & j1 & -> & <- & M1 & G1 & L1) & u3 & u4 & a2 & ar2 & -> & -> & (x & -> & -> & Hx) & u5 & u6 & a3 & ar3 & -> & -> & (v3 & x3 & j3 & -> & <- & M3 & G3 & L3) & -> & ->).
          rewrite app_nil_r in *. exists v, (Infix x1 x x3), i. split; auto. split; auto. split; [eapply means_infix with (f := InfixNone); eauto|]. split; auto. eapply grouped_none; eauto.
        * destruct IH as (u3 & u4 & a2 & ar2 & -> & -> & (x & -> & -> & Hx) & u5 & u6 & a3 & ar3 & -> & -> & (v3 & x3 & j3 & -> & <- & M3 & G3 & L3) & -> & ->).
          rewrite app_nil_r in *. exists v, (Before x x3), i. split; auto. split; auto. split; [eapply means_prefix; eauto|]. split; auto. eapply grouped_prefix; eauto.
        * destruct IH as (u1 & u2 & a1 & ar1 & -> & -> & (v1 & x1 & j1 & -> & <- & M1 & G1 & L1) & u3 & u4 & a2 & ar2 & -> & -> & (x & -> & -> & Hx) & -> & ->).
          rewrite app_nil_r in *. exists v, (Behind x1 x), i. split; auto. split; auto. split; [eapply means_postfix; eauto|]. split; auto. eapply grouped_postfix; eauto.
      + cbn in *. destruct IH as (u1 & u2 & a1 & ar1 & -> & -> & (v1 & x1 & j1 & -> & <- & M1 & G1 & L1) & -> & ->). rewrite app_nil_r. exists v, x1, j1. split; auto. split; auto. split; [eapply means_pass; eauto|]. split; auto. lia.
      + cbn in *. destruct IH as (u1 & u2 & a1 & ar1 & -> & -> & (x & -> & -> & Hx) & -> & ->). injection Hx as Hx. exists v, (Operand x), n. split; auto. split; auto.
        assert (Hin : In (tix x, snd o) (tb_operands tb)) by (rewrite <- Hx; destruct o; auto). split; [econstructor; eauto|]. split; auto. econstructor; eauto.
      + cbn in *. destruct IH as (u1 & u2 & a1 & ar1 & -> & -> & (l & -> & -> & Hl) & u3 & u4 & a2 & ar2 & -> & -> & (v1 & x1 & j1 & -> & <- & M1 & G1 & L1) & u5 & u6 & a3 & ar3 & -> & -> & (r & -> & -> & Hr) & -> & ->).
        injection Hl as Hl. injection Hr as Hr. exists v, (Brackets l x1 r), n. split; auto. split; auto. split; [econstructor; eauto|]. split; auto. eapply grouped_brackets; eauto.
    - simpl. auto.
    - intros X l u u' a args _ IH1 _ IH2. exists u, u', a, args. auto.
  Qed.

  Lemma value_rule3 i l g X Y Z u1 u2 u3 a1 a2 a3 v : In (rule_new_raw i l g) (sx_rules s) -> cr_rule (rule_new_raw i l g) = mk_rule i [X; Y; Z] ->
    value tix (sx_rules s) X u1 a1 -> value tix (sx_rules s) Y u2 a2 -> value tix (sx_rules s) Z u3 a3 -> g [a1; a2; a3] = GOk v -> value tix (sx_rules s) (NT i) (u1 ++ u2 ++ u3) (NonTerminal v).
  Proof.
    intros Hc Hr H1 H2 H3 Hv. change i with (r_lhs (mk_rule i [X; Y; Z])). rewrite <- Hr. econstructor; [exact Hc| |exact Hv]. rewrite Hr. cbn [r_rhs].
    constructor; auto. constructor; auto. rewrite <- (app_nil_r u3). constructor; auto. constructor.
  Qed.
  Lemma value_rule2 i l g X Y u1 u2 a1 a2 v : In (rule_new_raw i l g) (sx_rules s) -> cr_rule (rule_new_raw i l g) = mk_rule i [X; Y] ->
    value tix (sx_rules s) X u1 a1 -> value tix (sx_rules s) Y u2 a2 -> g [a1; a2] = GOk v -> value tix (sx_rules s) (NT i) (u1 ++ u2) (NonTerminal v).
  Proof.
    intros Hc Hr H1 H2 Hv. change i with (r_lhs (mk_rule i [X; Y])). rewrite <- Hr. econstructor; [exact Hc| |exact Hv]. rewrite Hr. cbn [r_rhs].
    constructor; auto. rewrite <- (app_nil_r u2). constructor; auto. constructor.
  Qed.
  Lemma value_rule1 i l g X u1 a1 v : In (rule_new_raw i l g) (sx_rules s) -> cr_rule (rule_new_raw i l g) = mk_rule i [X] ->
    value tix (sx_rules s) X u1 a1 -> g [a1] = GOk v -> value tix (sx_rules s) (NT i) u1 (NonTerminal v).
  Proof.
    intros Hc Hr H1 Hv. change i with (r_lhs (mk_rule i [X])). rewrite <- Hr. econstructor; [exact Hc| |exact Hv]. rewrite Hr. cbn [r_rhs].
    rewrite <- (app_nil_r u1). constructor; auto. constructor.
  Qed.
  Lemma operator_rule f i x g : operator tix tb f i x g -> In (rule_new_raw i (op_symbols f i (tix x)) g) (sx_rules s).
  Proof. intros (lv & Hi & <- & Ho). apply rules_in. left. exists i, lv, (tix x, g). auto. Qed.
  Lemma expr_value x i v : means tix tb x i v -> forall j, grouped tix tb x j -> value tix (sx_rules s) (NT i) (flat x) (NonTerminal v).
  Proof.
    induction 1 as [x g v Hx Hv|l a r v' v Hm IH Hv|a x b f i g va vb v Ho Hf Ha IHa Hb IHb Hv|x a i g va v Ho Ha IHa Hv|a x i g va v Ho Ha IHa Hv|a i lv v' v Hi Ha IHa Hv]; intros j Hg; cbn [flat].
    - eapply (value_rule1 n [Terminal (tix x)] g); [apply rules_in; right; right; left; exists (tix x, g); auto|reflexivity|constructor|auto].
    - inversion Hg as [|l0 a0 r0 i0 Hl Hr Hga| | | | |]; subst. change (value tix (sx_rules s) (NT n) ([l] ++ flat a ++ [r]) (NonTerminal v)).
      eapply (value_rule3 n [Terminal (tb_open tb); NonTerminal 0; Terminal (tb_close tb)]); [apply rules_in; right; right; right; reflexivity|reflexivity| |eapply IH; eauto| |eauto].
      + rewrite <- Hl. constructor.
      + rewrite <- Hr. constructor.
    - assert (Hab : exists ja jb, grouped tix tb a ja /\ grouped tix tb b jb) by (inversion Hg; subst; eauto). destruct Hab as (ja & jb & Ga & Gb). specialize (IHa _ Ga). specialize (IHb _ Gb).
      change (flat a ++ x :: flat b) with (flat a ++ [x] ++ flat b). apply operator_rule in Ho.
      destruct f; try discriminate; eapply (value_rule3 i _ g); try exact Ho; try reflexivity; try exact IHa; try exact IHb; try exact Hv; constructor.
    - assert (Hab : exists ja, grouped tix tb a ja) by (inversion Hg; subst; eauto). destruct Hab as (ja & Ga). specialize (IHa _ Ga). apply operator_rule in Ho.
      change (x :: flat a) with ([x] ++ flat a). eapply (value_rule2 i _ g); try exact Ho; try reflexivity; try exact IHa; try exact Hv; constructor.
    - assert (Hab : exists ja, grouped tix tb a ja) by (inversion Hg; subst; eauto). destruct Hab as (ja & Ga). specialize (IHa _ Ga). apply operator_rule in Ho.
      eapply (value_rule2 i _ g); try exact Ho; try reflexivity; try exact IHa; try exact Hv; constructor.
    - eapply (value_rule1 i [NonTerminal (S i)] (lv_pass lv)); [apply rules_in; right; left; eauto|reflexivity|eapply IHa; eauto|auto].
  Qed.
  Lemma value_iff w v : value tix (sx_rules s) (NT 0) w (NonTerminal v) <-> exists a j, flat a = w /\ grouped tix tb a j /\ means tix tb a 0 v.
  Proof.
    split.
    - intros H. apply (proj1 value_expr) in H as (v' & a & j & E0 & H1 & H2 & H3 & _). injection E0 as <-. eauto.
    - intros (a & j & <- & H1 & H2). eapply expr_value; eauto.
  Qed.

  (** expressions are derivable *)
  Lemma lift_der i k w : der (gram s) (NT k) w -> i <= k -> k <= n -> der (gram s) (NT i) w.
  Proof.
    intros Hd Hik Hk. replace i with (k - (k - i)) by lia. assert (Hb : k - i <= k) by lia. revert Hb. generalize (k - i) as d. induction d as [|d IH]; intros Hb; [rewrite Nat.sub_0_r; auto|].
    destruct (nth_error levels (k - S d)) as [lv|] eqn:El; [|apply nth_error_None in El; lia].
    change (der (gram s) (NT (r_lhs (mk_rule (k - S d) [NT (S (k - S d))]))) w). constructor; [apply gram_shape; econstructor; eauto|]. apply ders_one. replace (S (k - S d)) with (k - d) by lia. apply IH. lia.
  Qed.
  Lemma grouped_le a j : grouped tix tb a j -> j <= n.
  Proof. intros H. destruct H; auto; match goal with H : operator _ _ _ _ _ _ |- _ => destruct H as (lv & H & _); apply level_lt in H; lia end. Qed.
  Lemma der3 i X Y Z u1 u2 u3 : In (mk_rule i [X; Y; Z]) (gram s) -> der (gram s) X u1 -> der (gram s) Y u2 -> der (gram s) Z u3 -> der (gram s) (NT i) (u1 ++ u2 ++ u3).
  Proof. intros Hr H1 H2 H3. change i with (r_lhs (mk_rule i [X; Y; Z])). constructor; auto. cbn [r_rhs]. constructor; auto. constructor; auto. apply ders_one. auto. Qed.
  Lemma der2 i X Y u1 u2 : In (mk_rule i [X; Y]) (gram s) -> der (gram s) X u1 -> der (gram s) Y u2 -> der (gram s) (NT i) (u1 ++ u2).
  Proof. intros Hr H1 H2. change i with (r_lhs (mk_rule i [X; Y])). constructor; auto. cbn [r_rhs]. constructor; auto. apply ders_one. auto. Qed.
  Lemma kinds_cat u v : kinds tix (u ++ v) = kinds tix u ++ kinds tix v.
  Proof. apply map_app. Qed.
  Lemma operator_gram f i x g : operator tix tb f i x g -> In (mk_rule i (op_rhs f i (tix x))) (gram s).
  Proof. intros (lv & Hi & <- & Ho). apply gram_shape. constructor. split; auto. apply in_map_iff. exists (tix x, g). auto. Qed.
  Lemma grouped_der a j : grouped tix tb a j -> der (gram s) (NT j) (kinds tix (flat a)).
  Proof.
    induction 1 as [x g Hx|l a r i Hl Hr Ha IH|a x b i j k g Ho Ha IHa Hij Hb IHb Hik|a x b i j k g Ho Ha IHa Hij Hb IHb Hik|a x b i j k g Ho Ha IHa Hij Hb IHb Hik|x a i j g Ho Ha IHa Hij|a x i j g Ho Ha IHa Hij]; cbn [flat].
    - change (der (gram s) (NT (r_lhs (mk_rule n [TM (TSym (tix x))]))) [TSym (tix x)]). constructor; [|apply ders_one; constructor]. apply gram_shape. constructor. apply in_map_iff. exists (tix x, g). auto.
    - change (l :: flat a ++ [r]) with ([l] ++ flat a ++ [r]). rewrite !kinds_cat. apply grouped_le in Ha as Hi. apply (der3 n (TM (TSym (tb_open tb))) (NT 0) (TM (TSym (tb_close tb)))).
      + apply gram_shape. constructor.
      + rewrite <- Hl. constructor.
      + apply (lift_der 0 i); auto. lia.
      + rewrite <- Hr. constructor.
    - change (flat a ++ x :: flat b) with (flat a ++ [x] ++ flat b). rewrite !kinds_cat. apply operator_gram in Ho. apply grouped_le in Ha, Hb. eapply der3; [exact Ho|apply (lift_der _ j); auto|constructor|apply (lift_der _ k); auto].
    - change (flat a ++ x :: flat b) with (flat a ++ [x] ++ flat b). rewrite !kinds_cat. apply operator_gram in Ho. apply grouped_le in Ha, Hb. eapply der3; [exact Ho|apply (lift_der _ j); auto|constructor|apply (lift_der _ k); auto].
    - change (flat a ++ x :: flat b) with (flat a ++ [x] ++ flat b). rewrite !kinds_cat. apply operator_gram in Ho. apply grouped_le in Ha, Hb. eapply der3; [exact Ho|apply (lift_der _ j); auto|constructor|apply (lift_der _ k); auto].
    - change (x :: flat a) with ([x] ++ flat a). rewrite !kinds_cat. apply operator_gram in Ho. apply grouped_le in Ha. eapply der2; [exact Ho|constructor|apply (lift_der _ j); auto].
    - rewrite !kinds_cat. apply operator_gram in Ho. apply grouped_le in Ha. eapply der2; [exact Ho|apply (lift_der _ j); auto|constructor].
  Qed.
  Lemma grouped_derivable a j : grouped tix tb a j -> derivable tix s (flat a).
  Proof. intros H. unfold derivable. cbn [sx_start table_syntax]. apply (lift_der 0 j); [apply grouped_der; auto|lia|eapply grouped_le; eauto]. Qed.
End Top.

(** ** Reducers that build the expression *)
Section Build.
  Context {N T E : Type} (tix : T -> nat).
  Notation A := (@ast T).
  Definition b_op (args : list (arg A T)) : gres A nat :=
    match args with
    | [NonTerminal a; Terminal x; NonTerminal b] => GOk (Infix a x b)
    | [Terminal x; NonTerminal a] => GOk (Before x a)
    | [NonTerminal a; Terminal x] => GOk (Behind a x)
    | _ => GPanic
    end.
  Definition b_same (args : list (arg A T)) : gres A nat := match args with [NonTerminal a] => GOk a | _ => GPanic end.
  Definition b_operand (args : list (arg A T)) : gres A nat := match args with [Terminal x] => GOk (Operand x) | _ => GPanic end.
  Definition b_brackets (args : list (arg A T)) : gres A nat := match args with [Terminal l; NonTerminal a; Terminal r] => GOk (Brackets l a r) | _ => GPanic end.
  Definition b_level (lv : level N T E) : level A T nat := mk_level (lv_fix lv) (map (fun o => (fst o, b_op)) (lv_ops lv)) b_same.
  Definition b_table (tb : table N T E) : table A T nat :=
    mk_table (map b_level (tb_levels tb)) (map (fun o => (fst o, b_operand)) (tb_operands tb)) (tb_open tb) (tb_close tb) b_brackets.

  Lemma fst_map {X Y Z} (f : Y) (l : list (X * Z)) : map fst (map (fun o => (fst o, f)) l) = map fst l.
  Proof. rewrite map_map. apply map_ext. auto. Qed.
  Lemma b_where p tb : ops_where p (b_table tb) = ops_where p tb.
  Proof. unfold ops_where, b_table. cbn [tb_levels]. induction (tb_levels tb) as [|lv l IH]; auto. cbn [map flat_map b_level lv_fix lv_ops]. rewrite fst_map, IH. auto. Qed.
  Lemma b_proper tb : proper_table tb -> proper_table (b_table tb).
  Proof.
    intros (H1 & H2 & H3). unfold proper_table. rewrite !b_where. cbn [b_table tb_open tb_close tb_operands]. rewrite fst_map. split; auto. split; auto. destruct (tb_operands tb); [congruence|discriminate].
  Qed.
  Lemma b_operator tb f i x g : operator tix tb f i x g -> operator tix (b_table tb) f i x b_op.
  Proof.
    intros (lv & Hi & Hf & Ho). exists (b_level lv). cbn [b_table tb_levels]. rewrite nth_error_map, Hi. split; auto. split; auto. cbn. apply in_map_iff. exists (tix x, g). auto.
  Qed.
  Lemma b_grouped tb a j : grouped tix tb a j -> grouped tix (b_table tb) a j.
  Proof.
    assert (Hn : length (tb_levels (b_table tb)) = length (tb_levels tb)) by (cbn; apply map_length).
    induction 1 as [x g Hx|l a r i Hl Hr Ha IH|a x b i j k g Ho Ha IHa Hij Hb IHb Hik|a x b i j k g Ho Ha IHa Hij Hb IHb Hik|a x b i j k g Ho Ha IHa Hij Hb IHb Hik|x a i j g Ho Ha IHa Hij|a x i j g Ho Ha IHa Hij]; try apply b_operator in Ho.
    - rewrite <- Hn. apply (grouped_operand tix (b_table tb) x b_operand). cbn. apply in_map_iff. exists (tix x, g). auto.
    - rewrite <- Hn. eapply grouped_brackets; eauto.
    - eapply grouped_left; eauto.
    - eapply grouped_right; eauto.
    - eapply grouped_none; eauto.
    - eapply grouped_prefix; eauto.
    - eapply grouped_postfix; eauto.
  Qed.
  Lemma b_pass tb a i v : means tix (b_table tb) a i v -> forall d, d <= i -> i <= length (tb_levels tb) -> means tix (b_table tb) a (i - d) v.
  Proof.
    intros H d. induction d as [|d IH]; intros Hd Hi; [rewrite Nat.sub_0_r; auto|].
    destruct (nth_error (tb_levels tb) (i - S d)) as [lv|] eqn:El; [|apply nth_error_None in El; lia].
    apply (means_pass tix (b_table tb) a (i - S d) (b_level lv) v v); [cbn; rewrite nth_error_map, El; auto|replace (S (i - S d)) with (i - d) by lia; apply IH; lia|reflexivity].
  Qed.
  Lemma b_down tb a i k v : means tix (b_table tb) a i v -> k <= i -> i <= length (tb_levels tb) -> means tix (b_table tb) a k v.
  Proof. intros H Hk Hi. replace k with (i - (i - k)) by lia. apply b_pass; auto. lia. Qed.
  Lemma b_means tb a j : grouped tix tb a j -> means tix (b_table tb) a j a.
  Proof.
    assert (Hn : length (tb_levels (b_table tb)) = length (tb_levels tb)) by (cbn; apply map_length).
    assert (Hlt : forall f i x g, operator tix (b_table tb) f i x g -> S i <= length (tb_levels tb)). { intros f i x g (lv & Hi & _). rewrite <- Hn. apply nth_error_Some. congruence. }
    induction 1 as [x g Hx|l a r i Hl Hr Ha IH|a x b i j k g Ho Ha IHa Hij Hb IHb Hik|a x b i j k g Ho Ha IHa Hij Hb IHb Hik|a x b i j k g Ho Ha IHa Hij Hb IHb Hik|x a i j g Ho Ha IHa Hij|a x i j g Ho Ha IHa Hij]; try apply b_operator in Ho; try apply grouped_le in Ha as La; try apply grouped_le in Hb as Lb.
    - rewrite <- Hn. apply (means_operand tix (b_table tb) x b_operand); [|auto]. cbn. apply in_map_iff. exists (tix x, g). auto.
    - rewrite <- Hn. eapply means_brackets; [apply (b_down tb a i 0); eauto; lia|reflexivity].
    - eapply (means_infix tix (b_table tb) a x b InfixLeft); eauto; [eapply b_down; eauto|eapply b_down; eauto|reflexivity].
    - eapply (means_infix tix (b_table tb) a x b InfixRight); eauto; [eapply b_down; eauto|eapply b_down; eauto|reflexivity].
    - eapply (means_infix tix (b_table tb) a x b InfixNone); eauto; [eapply b_down; eauto|eapply b_down; eauto|reflexivity].
    - eapply means_prefix; eauto; [eapply b_down; eauto|reflexivity].
    - eapply means_postfix; eauto; [eapply b_down; eauto|reflexivity].
  Qed.
End Build.
