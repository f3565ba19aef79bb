(** * Property C77: operator tables *)
From Coq Require Import List Arith Lia Bool ZArith.
From Verif Require Import Lib Grammar LrModel LrSpec LrTop ParseModel Trees ParseSpec GramFacts ParseInv ParseComplete ParseTop ParseMore ParseExamples PropParse PropLr PropRecover ProdCheck StmtSpec PropStmt ValueProofs OpSpec OpProofs OpTop OpGroup.
Import ListNotations.

(** the grammar of an operator table gives a parser, and no conflict is reported *)
Theorem C77_made : forall N T E (nix : N -> nat) (tix : T -> nat) e (tb : table N T E),
  lr_env_ok e -> proper_table tb -> api_syntax nix tix (table_syntax tb) /\ exists P, makes e (table_syntax tb) P [].
Proof. intros N T E nix tix e tb He Htb. split; [apply op_api|exact (op_made nix tix tb e Htb He)]. Qed.
Print Assumptions C77_made.

(** it returns [v] just if the input is a grouped expression whose reducers give [v] *)
Theorem C77_value : forall N T E (tix : T -> nat) e (tb : table N T E) P ws w v,
  proper_table tb -> makes e (table_syntax tb) P ws ->
  (returns tix P w (ROk v) <-> exists a i, flat a = w /\ grouped tix tb a i /\ means tix tb a 0 v).
Proof.
  intros N T E tix e tb P ws w v Htb Hmk. set (nix := fun _ : N => 0). pose proof (op_api nix tix tb) as Ha.
  destruct (makes_made nix tix e _ P ws Ha Hmk) as [ss Hm]. assert (Hws : ws = []) by (apply (md_free _ _ _ _ Hm); apply (table_free tb Htb ss (md_fresh _ _ _ _ Hm))). subst ws.
  rewrite <- value_iff. change 0 with (sx_start (table_syntax tb)). rewrite value_proper. split.
  - intros H. apply (C21_sound N T E nix tix e _ P [] w v Ha Hmk (op_error_free tb) H).
  - intros (t & H1 & H2). destruct (C25_evaluation N T E nix tix e _ P w t Ha Hmk (op_not_cyclic tb) H1) as [H _]. rewrite H2 in H. exact H.
Qed.
Print Assumptions C77_value.

Lemma grouped_builds {N T E} (tix : T -> nat) (tb : table N T E) e P ws a i : proper_table tb -> makes e (table_syntax (b_table tb)) P ws -> grouped tix tb a i -> returns tix P (flat a) (ROk a).
Proof.
  intros Htb Hmk H. apply (C77_value _ _ _ tix e (b_table tb) P ws _ _ (b_proper tb Htb) Hmk). exists a, i. split; auto. split; [apply b_grouped; auto|].
  eapply b_down; [apply b_means; eauto|lia|eapply grouped_le; eauto].
Qed.

(** an input is grouped in one way at most *)
Theorem C77_unique : forall N T E (tix : T -> nat) (tb : table N T E) a i a' i',
  proper_table tb -> grouped tix tb a i -> grouped tix tb a' i' -> flat a = flat a' -> a = a' /\ i = i'.
Proof.
  intros N T E tix tb a i a' i' Htb H H' Hf. assert (a = a') as <-.
  { destruct (op_made (fun _ => 0) tix (b_table tb) env0 (b_proper tb Htb) env0_ok) as [P Hmk].
    pose proof (grouped_builds tix tb env0 P [] a i Htb Hmk H) as R1. pose proof (grouped_builds tix tb env0 P [] a' i' Htb Hmk H') as R2. rewrite Hf in R1.
    pose proof (returns_det _ _ _ _ _ R1 R2) as E0. injection E0. auto. }
  split; auto. revert H H'. clear Hf. intros H H'.
  assert (Hop : forall f1 f2 k k' x g g', operator tix tb f1 k x g -> operator tix tb f2 k' x g' -> is_prefix f1 = is_prefix f2 -> k = k').
  { intros f1 f2 k k' x g g' (lv & A1 & A2 & A3) (lv' & B1 & B2 & B3) Hp. eapply op_unique with (t := tix x) (lv := lv) (lv' := lv'); try exact Htb.
    - split; eauto. apply in_map_iff. exists (tix x, g). auto.
    - split; eauto. apply in_map_iff. exists (tix x, g'). auto.
    - congruence. }
  inversion H; subst; inversion H'; subst; auto; eapply Hop; eauto.
Qed.
Print Assumptions C77_unique.

(** when the reducers do not fail, every grouped expression is accepted with its value, everything else is rejected *)
Theorem C77_decides : forall N T E (tix : T -> nat) e (tb : table N T E) P ws w,
  proper_table tb -> makes e (table_syntax tb) P ws -> total_on tix (table_syntax tb) w ->
  (exists a i v, flat a = w /\ grouped tix tb a i /\ means tix tb a 0 v /\ returns tix P w (ROk v)) \/
  ((forall a i, grouped tix tb a i -> flat a <> w) /\ returns tix P w RNotFound).
Proof.
  intros N T E tix e tb P ws w Htb Hmk Ht. set (nix := fun _ : N => 0). pose proof (op_api nix tix tb) as Ha.
  destruct (makes_made nix tix e _ P ws Ha Hmk) as [ss Hm]. assert (Hws : ws = []) by (apply (md_free _ _ _ _ Hm); apply (table_free tb Htb ss (md_fresh _ _ _ _ Hm))). subst ws.
  destruct (C23_decides_partial N T E nix tix e _ P w Ha Hmk (op_error_free tb) (op_productive tb Htb) Ht) as [[_ [v Hv]]|[Hn Hr]].
  - left. destruct (proj1 (C77_value N T E tix e tb P [] w v Htb Hmk) Hv) as (a & i & H1 & H2 & H3). exists a, i, v. auto.
  - right. split; auto. intros a i Hg <-. apply Hn. eapply grouped_derivable; eauto.
Qed.
Print Assumptions C77_decides.

(** with a usual table, every sequence of operands, operators and brackets in which the operators have operands has a grouping *)
Theorem C77_every_sequence : forall N T E (tix : T -> nat) (tb : table N T E) a,
  usual_table tb -> loose tix tb a -> exists a' i, grouped tix tb a' i /\ flat a' = flat a.
Proof. intros N T E tix tb a Hu Ha. exact (regroup tix tb Hu a Ha). Qed.
Print Assumptions C77_every_sequence.

(** ** Example: numbers are 0, + is 1, - is 2 (infix and prefix), * is 3, ^ is 4, ( is 5, ) is 6, ! is 7. *)
Section Calc.
  Open Scope Z_scope.
  Definition tok : Type := nat * Z.
  Definition bin (f : Z -> Z -> Z) : reducer Z tok nat := fun args => match args with [NonTerminal a; Terminal _; NonTerminal b] => GOk (f a b) | _ => GPanic end.
  Definition neg : reducer Z tok nat := fun args => match args with [Terminal _; NonTerminal a] => GOk (- a) | _ => GPanic end.
  Definition twice : reducer Z tok nat := fun args => match args with [NonTerminal a; Terminal _] => GOk (2 * a) | _ => GPanic end.
  Definition same : reducer Z tok nat := fun args => match args with [NonTerminal a] => GOk a | _ => GPanic end.
  Definition number : reducer Z tok nat := fun args => match args with [Terminal x] => GOk (snd x) | _ => GPanic end.
  Definition inner : reducer Z tok nat := fun args => match args with [Terminal _; NonTerminal a; Terminal _] => GOk a | _ => GPanic end.
  Definition calc : table Z tok nat :=
    mk_table [mk_level InfixLeft [(1%nat, bin Z.add); (2%nat, bin Z.sub)] same; mk_level InfixLeft [(3%nat, bin Z.mul)] same; mk_level InfixRight [(4%nat, bin Z.pow)] same;
              mk_level Prefix [(2%nat, neg)] same; mk_level Postfix [(7%nat, twice)] same] [(0%nat, number)] 5%nat 6%nat inner.
  Definition num (z : Z) : tok := (0%nat, z).
  Definition sign (k : nat) : tok := (k, 0).
  Definition P_calc : parser Z tok nat := Eval vm_compute in made_parser (lr1_new env0 1000 (table_syntax calc)).
  (** 9 - 2 ^ 3 ^ 1 - - 5 ! * ( 1 - 4 - 6 ) *)
  Definition w_calc : list tok := [num 9; sign 2; num 2; sign 4; num 3; sign 4; num 1; sign 2; sign 2; num 5; sign 7; sign 3; sign 5; num 1; sign 2; num 4; sign 2; num 6; sign 6].
  Definition a_calc : ast :=
    Infix (Infix (Operand (num 9)) (sign 2) (Infix (Operand (num 2)) (sign 4) (Infix (Operand (num 3)) (sign 4) (Operand (num 1))))) (sign 2)
          (Infix (Before (sign 2) (Behind (Operand (num 5)) (sign 7))) (sign 3)
                 (Brackets (sign 5) (Infix (Infix (Operand (num 1)) (sign 2) (Operand (num 4))) (sign 2) (Operand (num 6))) (sign 6))).
End Calc.
Ltac no_dup := repeat constructor; simpl; intuition discriminate.
Lemma calc_proper : proper_table calc.
Proof. split; [no_dup|]. split; [no_dup|discriminate]. Qed.
Lemma calc_usual : usual_table calc.
Proof.
  intros i lv Hi. destruct i as [|[|[|[|[|i]]]]]; cbn in Hi; try (injection Hi as <-); try (destruct i; discriminate Hi); split; try discriminate; try discriminate; intros _ j lv' Hj Hl.
  - destruct j as [|[|[|[|[|j]]]]]; try lia; cbn in Hl; try (destruct j; discriminate Hl). injection Hl as <-. split; [auto|discriminate].
  - destruct j as [|[|[|[|[|j]]]]]; try lia; cbn in Hl; try (destruct j; discriminate Hl).
Qed.
Ltac op_at := eexists; split; [reflexivity|]; split; [reflexivity|]; cbn; eauto.
Lemma calc_grouped : grouped fst calc a_calc 0.
Proof.
  unfold a_calc.
  repeat first
    [ eapply grouped_operand; cbn; eauto; fail
    | eapply grouped_brackets; [reflexivity|reflexivity|]
    | eapply (grouped_left fst calc) with (i := 0); [op_at; fail| | | |]
    | eapply (grouped_left fst calc) with (i := 1); [op_at; fail| | | |]
    | eapply (grouped_right fst calc) with (i := 2); [op_at; fail| | | |]
    | eapply (grouped_prefix fst calc) with (i := 3); [op_at; fail| |]
    | eapply (grouped_postfix fst calc) with (i := 4); [op_at; fail| |] ]; cbn; try lia.
Qed.
Lemma calc_total w : total_on fst (table_syntax calc) w.
Proof.
  exists (fun _ _ => True). intros r args Hr (Hf & _) _. simpl in Hr. repeat destruct Hr as [<-|Hr]; try destruct Hr; simpl in *.
  all: repeat match goal with H : Forall2 _ (_ :: _) _ |- _ => inversion H; clear H; subst | H : Forall2 _ [] _ |- _ => inversion H; clear H; subst
    | H : fits _ _ ?a |- _ => destruct a; simpl in H; try contradiction; clear H end.
  all: simpl; eexists; split; [reflexivity|exact I].
Qed.
Example C77_example : proper_table calc /\ usual_table calc /\ lr_env_ok env0 /\ makes env0 (table_syntax calc) P_calc [] /\
  flat a_calc = w_calc /\ grouped fst calc a_calc 0 /\ total_on fst (table_syntax calc) w_calc /\ returns fst P_calc w_calc (ROk (9 - 2 ^ 3 - (- (2 * 5)) * (1 - 4 - 6))%Z).
Proof.
  split; [apply calc_proper|]. split; [apply calc_usual|]. split; [apply env0_ok|]. split; [split; [apply env0_ok|]; exists 1000; vm_compute; reflexivity|]. split; [reflexivity|]. split; [apply calc_grouped|].
  split; [apply calc_total|exists 1000; vm_compute; reflexivity].
Qed.

(** A unary minus that is looser than the infix operator ^ cannot stand behind it: 2 ^ - 1 is rejected, whatever the reducers.
    So the condition on unary operators is needed. *)
Definition loose_minus : table Z tok nat := mk_table [mk_level Prefix [(2, neg)] same; mk_level InfixRight [(4, bin Z.pow)] same] [(0, number)] 5 6 inner.
Theorem C77_tight_unary_needed : exists (tb : table Z tok nat) a, proper_table tb /\ loose fst tb a /\
  (forall i lv, nth_error (tb_levels tb) i = Some lv -> lv_fix lv <> InfixNone) /\
  (forall a' i, grouped fst tb a' i -> flat a' <> flat a) /\ exists P, makes env0 (table_syntax tb) P [] /\ returns fst P (flat a) RNotFound.
Proof.
  exists loose_minus, (Infix (Operand (num 2)) (sign 4) (Before (sign 2) (Operand (num 1)))).
  assert (Hp : proper_table loose_minus) by (split; [no_dup|]; split; [no_dup|discriminate]). split; auto. split.
  { eapply (loose_infix fst loose_minus) with (f := InfixRight) (i := 1); [op_at|reflexivity| |].
    - eapply loose_operand; cbn; eauto.
    - eapply (loose_prefix fst loose_minus) with (i := 0); [op_at|]. eapply loose_operand; cbn; eauto. }
  split. { intros [|[|i]] lv H; cbn in H; try (injection H as <-; discriminate). destruct i; discriminate. }
  split.
  - intros a' i Hg Hf. assert (Hmk : makes env0 (table_syntax (b_table (T := tok) loose_minus)) (made_parser (lr1_new env0 1000 (table_syntax (b_table (T := tok) loose_minus)))) []) by (split; [apply env0_ok|]; exists 1000; vm_compute; reflexivity).
    pose proof (grouped_builds fst loose_minus env0 _ [] a' i Hp Hmk Hg) as H. rewrite Hf in H.
    assert (H' : returns fst (made_parser (lr1_new env0 1000 (table_syntax (b_table (T := tok) loose_minus)))) [num 2; sign 4; sign 2; num 1] RNotFound) by (exists 1000; vm_compute; reflexivity).
    pose proof (returns_det _ _ _ _ _ H H'). discriminate.
  - exists (made_parser (lr1_new env0 1000 (table_syntax loose_minus))). split; [split; [apply env0_ok|]; exists 1000; vm_compute; reflexivity|exists 1000; vm_compute; reflexivity].
Qed.
Print Assumptions C77_tight_unary_needed.

(** The same token as an infix operator on two levels: a conflict is reported. *)
Theorem C77_one_level_needed : exists tb : table Z tok nat, ~ proper_table tb /\ exists P ws, makes env0 (table_syntax tb) P ws /\ ws <> [].
Proof.
  exists (mk_table [mk_level InfixLeft [(1, bin Z.add)] same; mk_level InfixLeft [(1, bin Z.mul)] same] [(0, number)] 5 6 inner). split.
  - intros (_ & H & _). cbn in H. inversion H as [|? ? _ H1]; subst. inversion H1 as [|? ? H2 _]; subst. apply H2. simpl. auto.
  - eexists _, _. split; [split; [apply env0_ok|]; exists 1000; vm_compute; reflexivity|discriminate].
Qed.
Print Assumptions C77_one_level_needed.
