(** * Property C99: error recovery inside nested blocks *)
From Coq Require Import List Arith Lia Bool.
From Verif Require Import Lib Grammar LrModel LrSpec LrTop ParseModel Trees ParseSpec ParseInv ParseComplete GramFacts ParseTerm ParseTop ParseMore ParseCover ParseExamples PropParse PropRecover ProdCheck StmtSpec BlockSpec ParseBlock.
From Verif Require PropStmt.
Import ListNotations.

(** what is returned for an input with closed blocks is what its statements and blocks say, one by one *)
Theorem C99_blocks : forall N T E (nix : N -> nat) (tix : T -> nat) e base X R semi op cl (g1 g2 g3 g4 : reducer N T E) P w v,
  let s := block_list base X R semi op cl g1 g2 g3 g4 in
  api_syntax nix tix s -> block_rules base X R semi op cl -> makes e s P [] -> productive (gram s) ->
  nested tix semi op cl w -> returns tix P w (ROk v) -> blocks tix base X semi op cl g1 g2 g3 g4 w v.
Proof.
  intros N T E nix tix e base X R semi op cl g1 g2 g3 g4 P w v s Ha Hb Hmk Hp Hn Hr. destruct (makes_made nix tix e s P [] Ha Hmk) as [ss Hm].
  destruct (block_result tix base X R semi op cl g1 g2 g3 g4 Hb P ss w Hm Hp Hn) as [(v' & H1 & H2)|[H1|(x & H1)]].
  - pose proof (returns_det _ _ _ _ _ Hr H1) as E0. injection E0 as ->. exact H2.
  - exfalso. eapply PropStmt.panic_not_return; eauto.
  - pose proof (returns_det _ _ _ _ _ Hr H1). discriminate.
Qed.
Print Assumptions C99_blocks.

(** when the reducers do not fail: every input with closed blocks has such a value, exactly one, and it is returned *)
Theorem C99_exact : forall N T E (nix : N -> nat) (tix : T -> nat) e base X R semi op cl (g1 g2 g3 g4 : reducer N T E) P w,
  let s := block_list base X R semi op cl g1 g2 g3 g4 in
  api_syntax nix tix s -> block_rules base X R semi op cl -> makes e s P [] -> productive (gram s) -> total_on tix s w ->
  nested tix semi op cl w ->
  exists v, returns tix P w (ROk v) /\ forall v', blocks tix base X semi op cl g1 g2 g3 g4 w v' <-> v' = v.
Proof.
  intros N T E nix tix e base X R semi op cl g1 g2 g3 g4 P w s Ha Hb Hmk Hp Ht Hn. destruct (makes_made nix tix e s P [] Ha Hmk) as [ss Hm].
  assert (Hres : exists v, returns tix P w (ROk v) /\ blocks tix base X semi op cl g1 g2 g3 g4 w v).
  { destruct (PropStmt.nil_dec w) as [Hw|Hw].
    - destruct Ht as [ty Ht]. set (r := rule_new_raw R [] g3 : crule N T E).
      assert (Hr : In r (sx_rules s)) by (apply in_or_app; simpl; auto).
      destruct (Ht r [] Hr) as (v & Hv & _); [split; [constructor|split; [exists []; split; constructor|intros ? []]]|intros [|?] ? ? A; discriminate A|].
      exists v. split; [exact (empty_result tix base X R semi op cl g1 g2 g3 g4 Hb P ss w Hm v Hw Hv)|]. subst w. constructor. auto.
    - destruct (block_result tix base X R semi op cl g1 g2 g3 g4 Hb P ss w Hm Hp Hn) as [H|Hbad]; auto. exfalso.
      destruct (C23_decides_with_recovery_partial _ _ _ nix tix e s P w Ha Hmk Hp (block_apart base X R semi op cl g1 g2 g3 g4 Hb) (or_introl Hw) Ht) as [fuel Hf].
      assert (Ho : exists o, returns tix P w o /\ forall x, o <> RReducer x).
      { destruct Hf as [(_ & _ & v & H)|(_ & _ & [H|[v H]])]; eexists; (split; [exists fuel; exact H|discriminate]). }
      destruct Ho as (o & Ho & Hx). destruct Hbad as [H|[x H]]; [eapply PropStmt.panic_not_return; eauto|]. apply (Hx x). eapply returns_det; eauto. }
  destruct Hres as (v & H1 & H2). exists v. split; auto. intros v'. split; [|intros ->; auto]. intros H. exact (blocks_det tix base X R semi op cl g1 g2 g3 g4 Hb P ss Hm _ _ _ H H2).
Qed.
Print Assumptions C99_exact.

(** so a block gives what its inside gives when it is parsed by itself, whatever is wrong inside it and after it *)
Theorem C99_by_itself : forall N T E (nix : N -> nat) (tix : T -> nat) e base X R semi op cl (g1 g2 g3 g4 : reducer N T E) P o body c rest vb vr v,
  let s := block_list base X R semi op cl g1 g2 g3 g4 in
  api_syntax nix tix s -> block_rules base X R semi op cl -> makes e s P [] -> productive (gram s) -> total_on tix s (o :: body ++ c :: rest) ->
  nested tix semi op cl body -> nested tix semi op cl rest -> tix o = op -> tix c = cl ->
  returns tix P body (ROk vb) -> returns tix P rest (ROk vr) -> g4 [Terminal o; NonTerminal vb; Terminal c; NonTerminal vr] = GOk v ->
  returns tix P (o :: body ++ c :: rest) (ROk v).
Proof.
  intros N T E nix tix e base X R semi op cl g1 g2 g3 g4 P o body c rest vb vr v s Ha Hb Hmk Hp Ht Hn1 Hn2 Ho Hc H1 H2 Hv.
  destruct (C99_exact _ _ _ nix tix e base X R semi op cl g1 g2 g3 g4 P _ Ha Hb Hmk Hp Ht (nested_block tix semi op cl o body c rest Ho Hn1 Hc Hn2)) as (v' & Hr & Hu).
  replace v with v'; auto. symmetry. apply Hu. apply (blocks_block tix base X semi op cl g1 g2 g3 g4 o body c rest vb vr v); auto; eapply C99_blocks; eauto.
Qed.
Print Assumptions C99_by_itself.

(** ** Example: the statements of C76 (n = 0, + = 1, the end token 2, ( = 3, ) = 4), { = 5, } = 6. A right statement gives [0], a
    wrong one 100 and the tokens it is reported with; a block is put between 50 and 60. *)
Import PropStmt.
Definition bk_g4 (l : list (arg vals nat)) : gres vals nat := match l with [_; NonTerminal a; _; NonTerminal b] => GOk ([50] :: a ++ [60] :: b) | _ => GPanic end.
Definition bk_syntax : syntax vals nat nat := block_list st_base 0 1 2 5 6 st_g1 st_g2 st_g3 bk_g4.
Definition P_bk : parser vals nat nat := Eval vm_compute in made_parser (lr1_new env0 100 bk_syntax).
Lemma bk_api : api_syntax no_vals self bk_syntax.
Proof. raw_rules. Qed.
Lemma bk_makes : makes env0 bk_syntax P_bk [].
Proof. mk. Qed.
Lemma bk_rules : block_rules st_base 0 1 2 5 6.
Proof.
  split; [apply st_rules|]. repeat (split; [discriminate|]). intros r Hr. repeat (destruct Hr as [<-|Hr]); try destruct Hr; simpl; split; intros H;
    repeat (destruct H as [H|H]; try discriminate H); auto.
Qed.
Lemma bk_productive : productive (gram bk_syntax).
Proof. apply (prod_check_sound _ 4). reflexivity. Qed.
Lemma bk_total w : total_on self bk_syntax w.
Proof.
  exists (fun _ _ => True). intros r args Hr (Hf & _) _. simpl in Hr. repeat destruct Hr as [<-|Hr]; try destruct Hr; simpl in *.
  all: repeat match goal with H : Forall2 _ (_ :: _) _ |- _ => inversion H; clear H; subst | H : Forall2 _ [] _ |- _ => inversion H; clear H; subst
    | H : fits _ _ ?a |- _ => destruct a; simpl in H; try contradiction end.
  all: simpl; eexists; split; [reflexivity|exact I].
Qed.
(** n ; { n + ; { ( ; n ; } n n n ; } + ; { } n ; *)
Definition w_bk : list nat := [0; 2;  5; 0; 1; 2;  5; 3; 2;  0; 2; 6;  0; 0; 0; 2; 6;  1; 2;  5; 6;  0; 2].
Ltac nest := repeat first
  [ apply nested_end
  | apply (nested_stmt self 2 5 6 []); [intros ? [] | reflexivity | ]
  | eapply (nested_stmt self 2 5 6 [_]); [unfold plain, self; simpl; intros ? ?; lia | reflexivity | ]
  | eapply (nested_stmt self 2 5 6 [_; _]); [unfold plain, self; simpl; intros ? ?; lia | reflexivity | ]
  | eapply (nested_stmt self 2 5 6 [_; _; _]); [unfold plain, self; simpl; intros ? ?; lia | reflexivity | ] ].
Lemma bk_nested : nested self 2 5 6 w_bk.
Proof.
  unfold w_bk. nest. apply (nested_block self 2 5 6 5 [0; 1; 2;  5; 3; 2;  0; 2; 6;  0; 0; 0; 2] 6 [1; 2;  5; 6;  0; 2]); try reflexivity; nest.
  - apply (nested_block self 2 5 6 5 [3; 2;  0; 2] 6 [0; 0; 0; 2]); try reflexivity; nest.
  - apply (nested_block self 2 5 6 5 [] 6 [0; 2]); try reflexivity; nest.
Qed.
Example C99_example : api_syntax no_vals self bk_syntax /\ block_rules st_base 0 1 2 5 6 /\ makes env0 bk_syntax P_bk [] /\ productive (gram bk_syntax) /\ total_on self bk_syntax w_bk /\
  nested self 2 5 6 w_bk /\
  returns self P_bk w_bk (ROk [[0]; [50]; [100; 0; 1]; [50]; [100; 3; 2]; [0]; [60]; [100; 0; 0; 0]; [60]; [100; 1]; [50]; [60]; [0]]) /\
  returns self P_bk [0; 1; 2;  5; 3; 2;  0; 2; 6;  0; 0; 0; 2] (ROk [[100; 0; 1]; [50]; [100; 3; 2]; [0]; [60]; [100; 0; 0; 0]]).
Proof.
  split; [apply bk_api|]. split; [apply bk_rules|]. split; [apply bk_makes|]. split; [apply bk_productive|]. split; [apply bk_total|]. split; [apply bk_nested|].
  split; exists 300; vm_compute; reflexivity.
Qed.

(** ** Without the end token before a closing one, and with a block inside a wrong statement: the tokens of the blocks are
    reported like any other, so blocks are missed, and an input whose blocks are closed may be rejected.
    { n } n ; }      { n } n ;      n { n ; } ;      } ; *)
Theorem C99_nested_needed : api_syntax no_vals self bk_syntax /\ block_rules st_base 0 1 2 5 6 /\ makes env0 bk_syntax P_bk [] /\
  returns self P_bk [5; 0; 6; 0; 2; 6] (ROk [[50]; [100; 0; 6; 0]; [60]]) /\ returns self P_bk [5; 0; 6; 0; 2] RNotFound /\
  returns self P_bk [0; 5; 0; 2; 6; 2] (ROk [[100; 0; 5; 0]; [100; 6]]) /\ returns self P_bk [6; 2] (ROk [[100; 6]]) /\
  forall v, ~ blocks self st_base 0 2 5 6 st_g1 st_g2 st_g3 bk_g4 [0; 5; 0; 2; 6; 2] v.
Proof.
  split; [apply bk_api|]. split; [apply bk_rules|]. split; [apply bk_makes|]. do 4 (split; [exists 300; vm_compute; reflexivity|]).
  intros v H. remember [0; 5; 0; 2; 6; 2] as w0 eqn:E0.
  assert (Hu : forall u x rest, plain self 2 5 6 u -> self x = 2 -> u ++ x :: rest <> [0; 5; 0; 2; 6; 2]).
  { intros [|y [|y' u]] x rest Hu Hx E1; injection E1; intros; subst; try discriminate. destruct (Hu 5) as (_ & A & _); [simpl; auto|apply A; reflexivity]. }
  destruct H as [v0 _|u x rest a v' v0 Hp Hx _ _ _|u x rest sl v' v0 Hp Hx _ _ _ _|o body c rest vb v' v0 Ho _ _ _ _].
  - discriminate.
  - exact (Hu _ _ _ Hp Hx E0).
  - exact (Hu _ _ _ Hp Hx E0).
  - injection E0 as -> _. discriminate.
Qed.
Print Assumptions C99_nested_needed.
