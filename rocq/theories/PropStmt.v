(** * Property C76: statement lists with error recovery *)
From Coq Require Import List Arith Lia Bool.
From Verif Require Import Lib Grammar LrModel LrSpec LrTop ParseModel Trees ParseSpec ParseInv ParseComplete GramFacts ParseTerm ParseTop ParseMore ParseCover ParseExamples PropParse PropRecover ProdCheck StmtSpec ParseStmt.
Import ListNotations.

Lemma panic_not_return {N T E} (tix : T -> nat) (P : parser N T E) w o : panics tix P w -> returns tix P w o -> False.
Proof. intros H1 H2. eapply returns_no_panic; eauto. Qed.
Lemma nil_dec {A} (l : list A) : l = [] \/ l <> [].
Proof. destruct l; [left; auto|right; discriminate]. Qed.

(** what a parser for a statement list returns is what the statements say, one by one *)
Theorem C76_statements : forall N T E (nix : N -> nat) (tix : T -> nat) e base X R semi (g1 g2 g3 : reducer N T E) P w v,
  let s := stmt_list base X R semi g1 g2 g3 in
  api_syntax nix tix s -> statement_rules base X R semi -> makes e s P [] -> productive (gram s) ->
  returns tix P w (ROk v) -> program tix base X semi g1 g2 g3 w v.
Proof.
  intros N T E nix tix e base X R semi g1 g2 g3 P w v s Ha Hb Hmk Hp Hr. destruct (makes_made nix tix e s P [] Ha Hmk) as [ss Hm].
  destruct (stmt_result tix base X R semi g1 g2 g3 Hb P ss w Hm Hp) as [(v' & H1 & H2 & _)|[[H1 _]|[H1|(x & H1)]]].
  - pose proof (returns_det _ _ _ _ _ Hr H1) as E0. injection E0 as ->. exact H2.
  - pose proof (returns_det _ _ _ _ _ Hr H1). discriminate.
  - exfalso. eapply panic_not_return; eauto.
  - pose proof (returns_det _ _ _ _ _ Hr H1). discriminate.
Qed.
Print Assumptions C76_statements.

(** when the reducers do not fail: every input that ends in an end token has such a value, and it is returned; every other
    input is rejected *)
Theorem C76_exact : forall N T E (nix : N -> nat) (tix : T -> nat) e base X R semi (g1 g2 g3 : reducer N T E) P w,
  let s := stmt_list base X R semi g1 g2 g3 in
  api_syntax nix tix s -> statement_rules base X R semi -> makes e s P [] -> productive (gram s) -> total_on tix s w ->
  (forall v, returns tix P w (ROk v) <-> program tix base X semi g1 g2 g3 w v) /\
  (finished tix semi w -> exists v, program tix base X semi g1 g2 g3 w v) /\
  (~ finished tix semi w -> returns tix P w RNotFound).
Proof.
  intros N T E nix tix e base X R semi g1 g2 g3 P w s Ha Hb Hmk Hp Ht. destruct (makes_made nix tix e s P [] Ha Hmk) as [ss Hm].
  assert (Hres : (exists v, returns tix P w (ROk v) /\ program tix base X semi g1 g2 g3 w v /\ finished tix semi w) \/ (returns tix P w RNotFound /\ ~ finished tix semi w)).
  { destruct (nil_dec w) as [Hw|Hw].
    - left. destruct Ht as [ty Ht]. set (r := rule_new_raw R [] g3 : crule N T E).
      assert (Hr : In r (sx_rules s)) by (apply in_or_app; simpl; auto).
      destruct (Ht r [] Hr) as (v & Hv & _); [split; [constructor|split; [exists []; split; constructor|intros ? []]]|intros [|?] ? ? A; discriminate A|].
      pose proof (empty_result tix base X R semi g1 g2 g3 Hb P ss w Hm v Hw Hv). exists v. split; auto. subst w. split; [constructor; auto|left; auto].
    - destruct (stmt_result tix base X R semi g1 g2 g3 Hb P ss w Hm Hp) as [H|[H|Hbad]]; auto. exfalso.
      destruct (C23_decides_with_recovery_partial _ _ _ nix tix e s P w Ha Hmk Hp (stmt_apart base X R semi g1 g2 g3 Hb) (or_introl Hw) Ht) as [fuel Hf].
      assert (Ho : exists o, returns tix P w o /\ forall x, o <> RReducer x).
      { destruct Hf as [(_ & _ & v & H)|(_ & _ & [H|[v H]])]; eexists; (split; [exists fuel; exact H|discriminate]). }
      destruct Ho as (o & Ho & Hn). destruct Hbad as [H|[x H]]; [eapply panic_not_return; eauto|]. apply (Hn x). eapply returns_det; eauto. }
  assert (Hdec : forall v, program tix base X semi g1 g2 g3 w v -> returns tix P w (ROk v)).
  { intros v Hv. destruct Hres as [(v' & H1 & H2 & _)|[_ H2]].
    - rewrite (program_det tix base X R semi g1 g2 g3 Hb P ss Hm _ _ _ Hv H2). exact H1.
    - exfalso. apply H2. eapply program_finished; eauto. }
  repeat split; auto.
  - intros Hr. eapply C76_statements; eauto.
  - intros Hf. destruct Hres as [(v & _ & H & _)|[_ H]]; [eauto|contradiction].
  - intros Hf. destruct Hres as [(v & _ & _ & H)|[H _]]; [contradiction|auto].
Qed.
Print Assumptions C76_exact.

(** ** Example: X ::= E; E ::= E + n | n | ( E ), with n = 0, + = 1, the end token 2, ( = 3, ) = 4. A right statement gives
    [0], a wrong one 100 and the tokens it is reported with. *)
Definition made_parser {N T E} (r : res (parser N T E * list warning)) : parser N T E :=
  match r with Ok (P, _) => P | _ => mk_lr1 (mk_parser [] [] [] [] 0) [] end.
Definition vals := list (list nat).
Definition st_rule (A : nat) (l : list (symbol nat nat unit)) (g : list (arg vals nat) -> vals) : crule vals nat nat := rule_new_raw A l (fun a => GOk (g a)).
Definition st_good (l : list (arg vals nat)) : vals := [[0]].
Definition st_base : list (crule vals nat nat) :=
  [ st_rule 0 [NonTerminal 2] st_good; st_rule 2 [NonTerminal 2; Terminal 1; Terminal 0] st_good; st_rule 2 [Terminal 0] st_good;
    st_rule 2 [Terminal 3; NonTerminal 2; Terminal 4] st_good ].
Definition st_g1 (l : list (arg vals nat)) : gres vals nat := match l with [NonTerminal a; _; NonTerminal b] => GOk (a ++ b) | _ => GPanic end.
Definition st_g2 (l : list (arg vals nat)) : gres vals nat := match l with [ErrorSym a; _; NonTerminal b] => GOk ((100 :: a) :: b) | _ => GPanic end.
Definition st_g3 (l : list (arg vals nat)) : gres vals nat := GOk [].
Definition st_syntax : syntax vals nat nat := stmt_list st_base 0 1 2 st_g1 st_g2 st_g3.
Definition no_vals : vals -> nat := fun _ => 0.
Definition self : nat -> nat := fun x => x.
Definition P_st : parser vals nat nat := Eval vm_compute in made_parser (lr1_new env0 100 st_syntax).
Ltac raw_rules := repeat apply Forall_cons; try apply Forall_nil; constructor.
Lemma st_api : api_syntax no_vals self st_syntax.
Proof. raw_rules. Qed.
Lemma st_makes : makes env0 st_syntax P_st [].
Proof. mk. Qed.
Lemma st_rules : statement_rules st_base 0 1 2.
Proof.
  split; [discriminate|]. intros r Hr. repeat (destruct Hr as [<-|Hr]); try destruct Hr; simpl; repeat split; try discriminate; intros H;
    repeat (destruct H as [H|H]; try discriminate H); auto.
Qed.
Lemma st_productive : productive (gram st_syntax).
Proof. apply (prod_check_sound _ 4). reflexivity. Qed.
Lemma st_total w : total_on self st_syntax w.
Proof.
  exists (fun _ _ => True). intros r args Hr (Hf & _) _. simpl in Hr. repeat destruct Hr as [<-|Hr]; try destruct Hr; simpl in *.
  all: repeat match goal with H : Forall2 _ (_ :: _) _ |- _ => inversion H; clear H; subst | H : Forall2 _ [] _ |- _ => inversion H; clear H; subst
    | H : fits _ _ ?a |- _ => destruct a; simpl in H; try contradiction end.
  all: simpl; eexists; split; [reflexivity|exact I].
Qed.
(** n ; n + ; n n n ; ; + ; n ; ( ; ( n ) ; *)
Definition w_st : list nat := [0; 2;  0; 1; 2;  0; 0; 0; 2;  2;  1; 2;  0; 2;  3; 2;  3; 0; 4; 2].
Example C76_example : api_syntax no_vals self st_syntax /\ statement_rules st_base 0 1 2 /\ makes env0 st_syntax P_st [] /\ productive (gram st_syntax) /\ total_on self st_syntax w_st /\
  returns self P_st w_st (ROk [[0]; [100; 0; 1]; [100; 0; 0; 0]; [100; 2]; [100; 1]; [0]; [100; 3; 2]; [0]]) /\
  finished self 2 w_st /\ ~ finished self 2 (w_st ++ [0]) /\ returns self P_st (w_st ++ [0]) RNotFound.
Proof.
  split; [apply st_api|]. split; [apply st_rules|]. split; [apply st_makes|]. split; [apply st_productive|]. split; [apply st_total|].
  split; [exists 200; vm_compute; reflexivity|]. split; [right; exists (firstn 19 w_st), 2; split; reflexivity|].
  split; [|exists 200; vm_compute; reflexivity]. intros [H|(u & x & H & Hx)]; [discriminate|]. apply app_inj_tail in H as [_ <-]. discriminate.
Qed.

(** ** The list on the left: R ::= R X ; | R error ; | (nothing). A right statement before a wrong one is lost, and an input
    that begins with a wrong one is rejected. *)
Definition lf_g1 (l : list (arg vals nat)) : gres vals nat := match l with [NonTerminal a; NonTerminal b; _] => GOk (a ++ b) | _ => GPanic end.
Definition lf_g2 (l : list (arg vals nat)) : gres vals nat := match l with [NonTerminal b; ErrorSym a; _] => GOk (b ++ [100 :: a]) | _ => GPanic end.
Definition lf_syntax : syntax vals nat nat := mk_syntax (st_base ++ [ rule_new_raw 1 [NonTerminal 1; NonTerminal 0; Terminal 2] lf_g1;
  rule_new_raw 1 [NonTerminal 1; ErrorSym tt; Terminal 2] lf_g2; rule_new_raw 1 [] st_g3 ]) 1.
Definition P_lf : parser vals nat nat := Eval vm_compute in made_parser (lr1_new env0 100 lf_syntax).
Theorem C76_left_list_refuted : api_syntax no_vals self lf_syntax /\ makes env0 lf_syntax P_lf [] /\
  returns self P_lf [0; 2; 0; 2] (ROk [[0]; [0]]) /\ returns self P_lf [0; 2; 0; 2; 1; 2] (ROk [[0]; [100; 0; 2; 1]]) /\ returns self P_lf [1; 2] RNotFound.
Proof. split; [raw_rules|]. split; [mk|]. repeat split; exists 200; vm_compute; reflexivity. Qed.
Print Assumptions C76_left_list_refuted.

(** ** An empty right-hand side among the rules of the statements: X ::= A n; A ::= ( | (nothing). The first token of a wrong
    statement is not reported. *)
Definition em_base : list (crule vals nat nat) := [ st_rule 0 [NonTerminal 2; Terminal 0] st_good; st_rule 2 [] st_good; st_rule 2 [Terminal 3] st_good ].
Definition em_syntax : syntax vals nat nat := stmt_list em_base 0 1 2 st_g1 st_g2 st_g3.
Definition P_em : parser vals nat nat := Eval vm_compute in made_parser (lr1_new env0 100 em_syntax).
Theorem C76_empty_rules_refuted : api_syntax no_vals self em_syntax /\ makes env0 em_syntax P_em [] /\
  returns self P_em [0; 1; 2] (ROk [[100; 1]]) /\ ~ program self em_base 0 2 st_g1 st_g2 st_g3 [0; 1; 2] [[100; 1]].
Proof.
  split; [raw_rules|]. split; [mk|]. split; [exists 200; vm_compute; reflexivity|]. intros H.
  assert (Hval : forall u a, value self em_base (NT 0) u a -> a = NonTerminal [[0]]).
  { intros u a Hv. inversion Hv as [|r u0 args v Hr _ Hg E1 E2 E3]. subst. destruct Hr as [<-|[<-|[<-|[]]]]; cbv in Hg; injection Hg as <-; try discriminate E1; reflexivity. }
  inversion H as [v0 Hg E0|u x rest a v' v Hu Hx Hv Hr Hg E0 E1|u x rest sl v' v Hu Hx Hns Hsl Hr Hg E0 E1].
  - rewrite (Hval _ _ Hv) in Hg. simpl in Hg. discriminate.
  - destruct u as [|? [|? [|? [|? ?]]]]; simpl in E0; injection E0; intros; subst; try discriminate. inversion Hsl; subst. simpl in Hg. discriminate.
Qed.
Print Assumptions C76_empty_rules_refuted.


(** ** A reducer that fails: X ::= A +; A ::= n, and the reducer of the second rule fails. The parser stops there even when the
    statement is wrong, so the equivalence in [C76_exact] needs reducers that do not fail. *)
Definition fl_base : list (crule vals nat nat) := [ st_rule 0 [NonTerminal 2; Terminal 1] st_good; rule_new_raw 2 [Terminal 0] (fun _ => GErr 7) ].
Definition fl_syntax : syntax vals nat nat := stmt_list fl_base 0 1 2 st_g1 st_g2 st_g3.
Definition P_fl : parser vals nat nat := Eval vm_compute in made_parser (lr1_new env0 100 fl_syntax).
Theorem C76_total_needed : api_syntax no_vals self fl_syntax /\ makes env0 fl_syntax P_fl [] /\ statement_rules fl_base 0 1 2 /\ productive (gram fl_syntax) /\
  program self fl_base 0 2 st_g1 st_g2 st_g3 [0; 1; 1; 2] [[100; 0; 1; 1]] /\ returns self P_fl [0; 1; 1; 2] (RReducer 7).
Proof.
  split; [raw_rules|]. split; [mk|]. split.
  { split; [discriminate|]. intros r Hr. repeat (destruct Hr as [<-|Hr]); try destruct Hr; simpl; repeat split; try discriminate; intros H;
      repeat (destruct H as [H|H]; try discriminate H); auto. }
  split.
  { apply (prod_check_sound _ 4). reflexivity. }
  split; [|exists 200; vm_compute; reflexivity].
  apply (program_error self fl_base 0 2 st_g1 st_g2 st_g3 [0; 1; 1] 2 [] [0; 1; 1] []); try reflexivity.
  - intros y Hy. simpl in Hy. unfold self. lia.
  - intros H. assert (HA : forall u, der (map cr_rule fl_base) (NT 2) u -> u = [TSym 0]).
    { intros u Hu. inversion Hu as [|r w Hr Hd E0 E1]. subst. destruct Hr as [<-|[<-|[]]]; try discriminate. simpl in Hd. repeat match goal with A : ders _ _ _ |- _ => inversion A; clear A; subst | A : der _ (TM _) _ |- _ => inversion A; clear A; subst end. reflexivity. }
    inversion H as [|r w Hr Hd E0 E1]. destruct Hr as [<-|[<-|[]]]; try discriminate. simpl in Hd. subst.
    inversion Hd as [|X l u v Hu Hv E1 E2]. subst. apply HA in Hu. subst u. inversion Hv as [|X l u v' Hu Hv' E1 E3]. subst. inversion Hu; subst. inversion Hv'; subst. discriminate.
  - constructor.
  - constructor. reflexivity.
Qed.
Print Assumptions C76_total_needed.
