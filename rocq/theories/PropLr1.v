(** * No warnings: exactly the LR(1) grammars.  C74. *)
From Coq Require Import List Arith Lia Bool.
From Verif Require Import Lib Grammar LrModel LrSpec LrNew LrTop ParseModel Trees ParseSpec ParseInv ParseComplete GramFacts ParseTerm ParseTop ParseMore ParseExamples PropParse PropLr Lr1Spec Lr1Proofs RecFamily.
Import ListNotations.

(** C74: a grammar in which all symbols are productive builds without warnings if and only if it is LR(1) (Lr1Spec.v: by
    rightmost derivations, without items or tables) *)
Theorem C74_lr1 : forall N T E (nix : N -> nat) (tix : T -> nat) e (s : syntax N T E) P ws,
  api_syntax nix tix s -> makes e s P ws ->
  (ws = [] -> lr1 (gram s) (sx_start s)) /\
  (productive (gram s) -> lr1 (gram s) (sx_start s) -> ws = []).
Proof.
  intros N T E nix tix e s P ws Ha Hmk. destruct (makes_made nix tix e s P ws Ha Hmk) as [ss Hm]. split.
  - intros Hw. apply (free_lr1 (gram s) (sx_start s) ss). apply (md_free _ _ _ _ Hm). auto.
  - intros Hp Hl. apply (md_free _ _ _ _ Hm). apply (lr1_free (gram s) (sx_start s) ss (md_fresh _ _ _ _ Hm) (md_eoi _ _ _ _ Hm) Hp Hl).
Qed.
Print Assumptions C74_lr1.

(** The same for the usual definition, which first adds a new start symbol [A] with the rule [A ::= start]: the difference is
    the grammars whose start symbol derives itself, which get no warning. *)
Theorem C74_lr1_augmented : forall N T E (nix : N -> nat) (tix : T -> nat) e (s : syntax N T E) P ws,
  api_syntax nix tix s -> makes e s P ws -> productive (gram s) ->
  exists A, p_rules (pr_tab P) = gram s ++ [mk_rule A [NT (sx_start s)]] /\ (forall r, In r (gram s) -> r_lhs r <> A /\ ~ In (NT A) (r_rhs r)) /\
    (lr1 (p_rules (pr_tab P)) A <-> ws = [] /\ ~ cyclic (gram s) (sx_start s)).
Proof.
  intros N T E nix tix e s P ws Ha Hmk Hp. destruct (makes_made nix tix e s P ws Ha Hmk) as [ss Hm]. exists ss.
  pose proof (md_fresh _ _ _ _ Hm) as Hss. pose proof (md_eoi _ _ _ _ Hm) as He.
  rewrite (can_rules _ _ _ (md_can _ _ _ _ Hm)). split; [reflexivity|]. split.
  { intros r Hr. split; [apply (ss_lhs (gram s) ss Hss); auto|apply (ss_rhs (gram s) ss Hss); auto]. }
  split.
  - intros Hl. destruct (aug_lr1 (gram s) (sx_start s) ss Hl) as [H1 H2]. split.
    + apply (md_free _ _ _ _ Hm). apply (lr1_free (gram s) (sx_start s) ss Hss He Hp H1).
    + apply (count_cyclic (gram s) (sx_start s) H1 H2 Hp).
  - intros [Hw Hc]. apply (lr1_aug (gram s) (sx_start s) ss Hss He); auto. apply (md_free _ _ _ _ Hm). auto.
Qed.
Print Assumptions C74_lr1_augmented.

(** both sides hold for expressions, and fail for E ::= E + E | i *)
Example C74_example : productive (gram expr) /\ lr1 (gram expr) (sx_start expr) /\ productive (gram g_plus) /\ ws_plus <> [] /\ ~ lr1 (gram g_plus) (sx_start g_plus).
Proof.
  assert (Hp : productive (gram g_plus)).
  { assert (HE : der (gram g_plus) (NT 0) [TSym kId]) by (apply single_der; simpl; auto 10).
    intros r X Hr HX. simpl in Hr. repeat destruct Hr as [<-|Hr]; try destruct Hr; simpl in HX; repeat destruct HX as [<-|HX]; try destruct HX; eauto; eexists; constructor. }
  assert (Hm : makes env0 g_plus P_plus ws_plus) by mk. assert (Ha : api_syntax nix0 tkix g_plus) by raw.
  split; [apply (expr_productive _)|]. split; [|split; [exact Hp|split; [discriminate|]]].
  - eapply (C74_lr1 _ _ _ nix0 tkix); [apply (expr_api _)|apply expr_makes|reflexivity].
  - intros Hl. assert (H : ws_plus = []) by (eapply (C74_lr1 _ _ _ nix0 tkix); eauto). discriminate H.
Qed.

(** Productivity cannot be dropped: S ::= c | A x U | a x U;  A ::= a;  U ::= U u is LR(1) because nothing with a [U] is ever
    complete, but a conflict is reported. *)
Definition g_unprod : stx := mk_syntax
  [ rule_new_raw 0 [TM' 3] r_zero;
    rule_new_raw 0 [NT' 1; TM' 1; NT' 2] r_zero;
    rule_new_raw 0 [TM' 0; TM' 1; NT' 2] r_zero;
    rule_new_raw 1 [TM' 0] r_zero;
    rule_new_raw 2 [NT' 2; TM' 2] r_zero ] 0.
Definition P_unprod : prs := Eval vm_compute in fst (build env0 g_unprod).
Definition ws_unprod : list warning := Eval vm_compute in snd (build env0 g_unprod).
Lemma unprod_form f : right_form (gram g_unprod) 0 f ->
  f = [NT 0] \/ f = [TM (TSym 3)] \/ exists X n, (X = NT 1 \/ X = TM (TSym 0)) /\ f = X :: TM (TSym 1) :: NT 2 :: map TM (repeat (TSym 2) n).
Proof.
  assert (Z : forall l z a, map TM l = a ++ NT z :: [] -> False) by (intros l z a H; destruct (map_TM_app _ _ _ H) as (u & [|? ?] & _ & _ & H2); discriminate).
  assert (Z2 : forall l z a t, map TM l = a ++ NT z :: t -> False) by (intros l z a t H; destruct (map_TM_app _ _ _ H) as (u & [|? ?] & _ & _ & H2); discriminate).
  induction 1 as [|k r a z H IH Hk]; [auto|]. destruct IH as [IH|[IH|(X & n & HX & IH)]].
  - destruct a as [|x a]; [|injection IH as _ IH; destruct a; discriminate]. injection IH as E1 E2. destruct z; [|discriminate]. right.
    destruct k as [|[|[|[|[|k]]]]]; [injection Hk as <-; cbn..|destruct k; discriminate]; try discriminate E1; [auto| |].
    + right. exists (NT 1), 0. auto.
    + right. exists (TM (TSym 0)), 0. auto.
  - exfalso. destruct a as [|x a]; [discriminate|]. injection IH as _ IH. destruct a; discriminate.
  - destruct a as [|x a].
    { injection IH as E1 E2. destruct z as [|t1 [|t2 z]]; discriminate. }
    injection IH as -> IH. destruct a as [|x2 a]; [discriminate|]. injection IH as -> IH. destruct a as [|x3 a]; [|injection IH as _ IH; exfalso; eapply Z2; eauto].
    injection IH as E1 E2. apply map_TM_inj in E2. subst z. do 4 (destruct k as [|k]; [injection Hk as <-; discriminate E1|]). destruct k as [|k]; [|destruct k; discriminate].
    injection Hk as <-. right. right. exists X, (S n). split; auto.
Qed.
Theorem C74_productive_needed : exists (s : stx) P ws, api_syntax nix0 tkix s /\ makes env0 s P ws /\ lr1 (gram s) (sx_start s) /\ ws <> [].
Proof.
  exists g_unprod, P_unprod, ws_unprod. split; [raw|]. split; [mk|]. split; [|discriminate].
  assert (Z2 : forall l z a t, map TM l = a ++ NT z :: t -> False) by (intros l z a t H; destruct (map_TM_app _ _ _ H) as (u & [|? ?] & _ & _ & H2); discriminate).
  assert (G : forall k r a z, nth_error (gram g_unprod) k = Some r -> right_form (gram g_unprod) 0 (a ++ NT (r_lhs r) :: map TM z) ->
    a = [] /\ z = [] /\ k < 3 \/ k = 4 /\ exists X n, (X = NT 1 \/ X = TM (TSym 0)) /\ a = [X; TM (TSym 1)] /\ z = repeat (TSym 2) n).
  { intros k r a z Hk H. apply unprod_form in H as [H|[H|(X & n & HX & H)]].
    - destruct a as [|x a]; [|injection H as _ H; destruct a; discriminate]. injection H as E1 E2. destruct z; [|discriminate]. left. split; auto. split; auto.
      do 3 (destruct k as [|k]; [lia|]). do 2 (destruct k as [|k]; [injection Hk as <-; discriminate E1|]). destruct k; discriminate.
    - exfalso. destruct a as [|x a]; [discriminate|]. injection H as _ H. destruct a; discriminate.
    - destruct a as [|x a].
      { injection H as E1 E2. destruct z as [|t1 [|t2 z]]; discriminate. }
      injection H as -> H. destruct a as [|x2 a]; [discriminate|]. injection H as -> H. destruct a as [|x3 a]; [|injection H as _ H; exfalso; eapply Z2; eauto].
      injection H as E1 E2. apply map_TM_inj in E2. subst z. do 4 (destruct k as [|k]; [injection Hk as <-; discriminate E1|]). destruct k as [|k]; [|destruct k; discriminate].
      right. split; auto. exists X, n. auto. }
  intros k r a z k' r' a' z' y Hk Hf Hk' Hf' E0 Hy. cbn [sx_start g_unprod] in *.
  destruct (G _ _ _ _ Hk Hf) as [(-> & -> & Hlt)|(-> & X & n & HX & -> & ->)]; destruct (G _ _ _ _ Hk' Hf') as [(-> & -> & Hlt')|(-> & X' & n' & HX' & -> & ->)].
  - destruct y; [|discriminate]. cbn [map app] in E0. rewrite !app_nil_r in E0. split; auto.
    do 3 (destruct k as [|k]; [do 3 (destruct k' as [|k']; [injection Hk as <-; injection Hk' as <-; try reflexivity; discriminate E0|]); lia|]). lia.
  - exfalso. destruct y; [|discriminate]. injection Hk' as <-. cbn [map app r_rhs] in E0. rewrite app_nil_r in E0.
    do 3 (destruct k as [|k]; [injection Hk as <-; discriminate E0|]). lia.
  - exfalso. injection Hk as <-. cbn [map app r_rhs] in E0. rewrite app_nil_r in E0.
    do 3 (destruct k' as [|k']; [injection Hk' as <-; discriminate E0|]). lia.
  - injection Hk as <-. injection Hk' as <-. cbn [map app r_rhs] in E0. injection E0 as -> E0. apply map_TM_inj in E0. auto.
Qed.
Print Assumptions C74_productive_needed.
