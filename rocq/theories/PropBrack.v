(** * Property C100: error recovery inside brackets *)
From Coq Require Import List Arith Lia Bool ZArith.
From Verif Require Import Lib Grammar LrModel LrSpec LrTop ParseModel Trees ParseSpec ParseInv ParseComplete GramFacts ParseTerm ParseTop ParseMore ParseCover ParseExamples PropParse PropRecover ProdCheck LoopCheck StmtSpec BrackSpec ParseBrack.
From Verif Require PropStmt.
Import ListNotations.

(** an input that is right but for the contents of some innermost brackets is not rejected, and nothing but its reading is
    returned for it *)
Theorem C100_reading : forall N T E (nix : N -> nat) (tix : T -> nat) e base X Y op cl start (g1 g2 : reducer N T E) P w v o,
  let s := bracket_syntax base X Y op cl start g1 g2 in
  api_syntax nix tix s -> bracket_rules base op cl -> makes e s P [] -> productive (gram s) -> ~ cyclic (gram s) start ->
  reads tix base X Y op cl start g1 g2 (NT start) w (NonTerminal v) -> returns tix P w o -> o = ROk v \/ exists x, o = RReducer x.
Proof.
  intros N T E nix tix e base X Y op cl start g1 g2 P w v o s Ha Hb Hmk Hp Hc Hr Ho. destruct (makes_made nix tix e s P [] Ha Hmk) as [ss Hm].
  destruct (bracket_result tix base X Y op cl start g1 g2 Hb P ss w Hm Hp Hc v Hr) as [H|[H|[x H]]].
  - left. eapply returns_det; eauto.
  - exfalso. eapply PropStmt.panic_not_return; eauto.
  - right. exists x. eapply returns_det; eauto.
Qed.
Print Assumptions C100_reading.

(** when the reducers do not fail: its reading is returned, and there is only one *)
Theorem C100_exact : forall N T E (nix : N -> nat) (tix : T -> nat) e base X Y op cl start (g1 g2 : reducer N T E) P w v,
  let s := bracket_syntax base X Y op cl start g1 g2 in
  api_syntax nix tix s -> bracket_rules base op cl -> makes e s P [] -> productive (gram s) -> ~ cyclic (gram s) start -> total_on tix s w ->
  reads tix base X Y op cl start g1 g2 (NT start) w (NonTerminal v) ->
  returns tix P w (ROk v) /\ forall v', reads tix base X Y op cl start g1 g2 (NT start) w (NonTerminal v') -> v' = v.
Proof.
  intros N T E nix tix e base X Y op cl start g1 g2 P w v s Ha Hb Hmk Hp Hc Ht Hr.
  assert (Hw : w <> []).
  { intros ->. destruct (proj1 (reads_first tix base X Y op cl start g1 g2 Hb 0) _ _ _ Hr) as (x & u' & E0 & _). discriminate. }
  assert (Hres : forall v0, reads tix base X Y op cl start g1 g2 (NT start) w (NonTerminal v0) -> returns tix P w (ROk v0)).
  { intros v0 Hv0. destruct (makes_made nix tix e s P [] Ha Hmk) as [ss Hm].
    destruct (bracket_result tix base X Y op cl start g1 g2 Hb P ss w Hm Hp Hc v0 Hv0) as [H|Hbad]; auto. exfalso.
    destruct (C23_decides_with_recovery_partial _ _ _ nix tix e s P w Ha Hmk Hp (apart base X Y op cl start g1 g2 Hb) (or_introl Hw) Ht) as [fuel Hf].
    assert (Ho : exists o, returns tix P w o /\ forall x, o <> RReducer x).
    { destruct Hf as [(_ & _ & v1 & H)|(_ & _ & [H|[v1 H]])]; eexists; (split; [exists fuel; exact H|discriminate]). }
    destruct Ho as (o & Ho & Hx). destruct Hbad as [H|[x H]]; [eapply PropStmt.panic_not_return; eauto|]. apply (Hx x). eapply returns_det; eauto. }
  split; [auto|]. intros v' Hr'. pose proof (returns_det _ _ _ _ _ (Hres _ Hr') (Hres _ Hr)) as E0. injection E0 as ->. reflexivity.
Qed.
Print Assumptions C100_exact.

(** a wrong content that becomes another wrong content changes nothing but what is reported for it: here for the group itself *)
Theorem C100_group : forall N T E (nix : N -> nat) (tix : T -> nat) e base X op cl start (g1 g2 : reducer N T E) P o u c sl v,
  let s := bracket_syntax base X start op cl start g1 g2 in
  api_syntax nix tix s -> bracket_rules base op cl -> makes e s P [] -> productive (gram s) -> ~ cyclic (gram s) start -> total_on tix s (o :: u ++ [c]) ->
  tix o = op -> tix c = cl -> flat tix op cl u -> ~ is_stmt tix (sx_rules s) X u -> reported tix (sx_rules s) X u c sl ->
  g2 [Terminal o; ErrorSym sl; Terminal c] = GOk v -> returns tix P (o :: u ++ [c]) (ROk v).
Proof.
  intros N T E nix tix e base X op cl start g1 g2 P o u c sl v s Ha Hb Hmk Hp Hnc Ht Ho Hc Hf Hns Hsl Hv.
  apply (C100_exact _ _ _ nix tix e base X start op cl start g1 g2 P _ v Ha Hb Hmk Hp Hnc Ht). apply (reads_error tix base X start op cl start g1 g2 o u c sl v); auto.
Qed.
Print Assumptions C100_group.

(** ** Example: X ::= X + Y | Y    Y ::= n | ( X ) | ( error )      with X = 0, Y = 1; n = 0, + = 1, ( = 3, ) = 4. A group is put
    between 50 and 60, a wrong one gives 100 and the tokens it is reported with. *)
Import PropStmt.
Definition br_sum (l : list (arg vals nat)) : vals := match l with [NonTerminal a; _; NonTerminal b] => a ++ [1] :: b | _ => [] end.
Definition br_one (l : list (arg vals nat)) : vals := match l with [NonTerminal a] => a | _ => [] end.
Definition br_base : list (crule vals nat nat) :=
  [ st_rule 0 [NonTerminal 0; Terminal 1; NonTerminal 1] br_sum; st_rule 0 [NonTerminal 1] br_one; st_rule 1 [Terminal 0] st_good ].
Definition br_g1 (l : list (arg vals nat)) : gres vals nat := match l with [_; NonTerminal a; _] => GOk ([50] :: a ++ [[60]]) | _ => GPanic end.
Definition br_g2 (l : list (arg vals nat)) : gres vals nat := match l with [_; ErrorSym a; _] => GOk [100 :: a] | _ => GPanic end.
Definition br_syntax : syntax vals nat nat := bracket_syntax br_base 0 1 3 4 0 br_g1 br_g2.
Definition P_br : parser vals nat nat := Eval vm_compute in made_parser (lr1_new env0 100 br_syntax).
Lemma br_api : api_syntax no_vals self br_syntax.
Proof. raw_rules. Qed.
Lemma br_makes : makes env0 br_syntax P_br [].
Proof. mk. Qed.
Lemma br_rules : bracket_rules br_base 3 4.
Proof.
  split; [discriminate|]. intros r Hr. repeat (destruct Hr as [<-|Hr]); try destruct Hr; simpl; repeat split; try discriminate; intros H;
    repeat (destruct H as [H|H]; try discriminate H); auto.
Qed.
Lemma br_productive : productive (gram br_syntax).
Proof. apply (prod_check_sound _ 4). reflexivity. Qed.
Lemma br_acyclic : ~ cyclic (gram br_syntax) 0.
Proof. apply (cycle_check_sound _ [] (fun A => 2 - A)); reflexivity. Qed.
Lemma br_total w : total_on self br_syntax w.
Proof.
  exists (fun _ _ => True). intros r args Hr (Hf & _) _. simpl in Hr. repeat destruct Hr as [<-|Hr]; try destruct Hr; simpl in *.
  all: repeat match goal with H : Forall2 _ (_ :: _) _ |- _ => inversion H; clear H; subst | H : Forall2 _ [] _ |- _ => inversion H; clear H; subst
    | H : fits _ _ ?a |- _ => destruct a; simpl in H; try contradiction end.
  all: simpl; eexists; split; [reflexivity|exact I].
Qed.
(** in a right content there is one [+] less than there are operands, and the brackets are as many *)
Definition br_weight (A : sym) : Z := match A with NT _ => 1 | TM (TSym 0) => 1 | TM (TSym 1) => -1 | TM (TSym 3) => 5 | TM (TSym 4) => -5 | TM TErr => 1 | _ => 0 end%Z.
Definition br_sumw (l : list sym) : Z := fold_right (fun A n => (br_weight A + n)%Z) 0%Z l.
Lemma br_sumw_app l l' : br_sumw (l ++ l') = (br_sumw l + br_sumw l')%Z.
Proof. induction l as [|A l IH]; [reflexivity|]. cbn [app br_sumw fold_right]. fold (br_sumw (l ++ l')) (br_sumw l). rewrite IH. lia. Qed.
Lemma br_balance : (forall A u, der (gram br_syntax) A u -> br_sumw (map TM u) = br_weight A) /\ (forall l u, ders (gram br_syntax) l u -> br_sumw (map TM u) = br_sumw l).
Proof.
  apply der_ders_ind.
  - intros t. cbn. lia.
  - intros r u Hr _ IH. rewrite IH. simpl in Hr. repeat destruct Hr as [<-|Hr]; try destruct Hr; reflexivity.
  - reflexivity.
  - intros A l u v _ IH1 _ IH2. rewrite map_app, br_sumw_app, IH1, IH2. reflexivity.
Qed.
Lemma br_wrong u : br_sumw (map TM (kinds self u)) <> 1%Z -> ~ is_stmt self (sx_rules br_syntax) 0 u.
Proof. intros H Hd. apply H. exact (proj1 br_balance _ _ Hd). Qed.
Notation br_reads := (reads self br_base 0 1 3 4 0 br_g1 br_g2).
Lemma rd_sum u u' a b : br_reads (NT 0) u (NonTerminal a) -> br_reads (NT 1) u' (NonTerminal b) -> br_reads (NT 0) (u ++ 1 :: u') (NonTerminal (a ++ [1] :: b)).
Proof.
  intros H1 H2. apply (reads_rule self br_base 0 1 3 4 0 br_g1 br_g2 (st_rule 0 [NonTerminal 0; Terminal 1; NonTerminal 1] br_sum) _ [NonTerminal a; Terminal 1; NonTerminal b]); [simpl; auto| |reflexivity].
  cbn. constructor; auto. change (1 :: u') with ([1] ++ u'). constructor; [apply (reads_token self)|]. rewrite <- (app_nil_r u'). constructor; auto. constructor.
Qed.
Lemma rd_one u a : br_reads (NT 1) u (NonTerminal a) -> br_reads (NT 0) u (NonTerminal a).
Proof.
  intros H. apply (reads_rule self br_base 0 1 3 4 0 br_g1 br_g2 (st_rule 0 [NonTerminal 1] br_one) _ [NonTerminal a]); [simpl; auto| |reflexivity].
  cbn. rewrite <- (app_nil_r u). constructor; auto. constructor.
Qed.
Lemma rd_n : br_reads (NT 1) [0] (NonTerminal [[0]]).
Proof.
  apply (reads_rule self br_base 0 1 3 4 0 br_g1 br_g2 (st_rule 1 [Terminal 0] st_good) _ [Terminal 0]); [simpl; auto| |reflexivity].
  cbn. rewrite <- (app_nil_r [0]). constructor; [apply (reads_token self)|]. constructor.
Qed.
Lemma rd_group u a : br_reads (NT 0) u (NonTerminal a) -> br_reads (NT 1) (3 :: u ++ [4]) (NonTerminal ([50] :: a ++ [[60]])).
Proof. intros H. apply (reads_group self br_base 0 1 3 4 0 br_g1 br_g2 3 u 4 (NonTerminal a)); auto. Qed.
Lemma rd_wrong u sl : flat self 3 4 u -> br_sumw (map TM (kinds self u)) <> 1%Z -> reported self (sx_rules br_syntax) 0 u 4 sl -> br_reads (NT 1) (3 :: u ++ [4]) (NonTerminal [100 :: sl]).
Proof. intros H1 H2 H3. apply (reads_error self br_base 0 1 3 4 0 br_g1 br_g2 3 u 4 sl); auto. apply br_wrong. auto. Qed.
(** ( n + ( + + ) ) + ( ) + ( n n ) + n *)
Definition w_br : list nat := [3; 0; 1; 3; 1; 1; 4; 4;  1;  3; 4;  1;  3; 0; 0; 4;  1;  0].
Definition v_br : vals := [[50]; [0]; [1]; [100; 1; 1]; [60]; [1]; [100; 4]; [1]; [100; 0; 0]; [1]; [0]].
Lemma br_reading : br_reads (NT 0) w_br (NonTerminal v_br).
Proof.
  change w_br with (((((3 :: ([0] ++ 1 :: (3 :: [1; 1] ++ [4])) ++ [4]) ++ 1 :: (3 :: [] ++ [4])) ++ 1 :: (3 :: [0; 0] ++ [4])) ++ 1 :: [0])).
  change v_br with ((((([50] :: ([[0]] ++ [1] :: [[100; 1; 1]]) ++ [[60]]) ++ [1] :: [[100; 4]]) ++ [1] :: [[100; 0; 0]]) ++ [1] :: [[0]])).
  assert (Hflat : forall u, Forall (fun y => y <> 3 /\ y <> 4) u -> flat self 3 4 u) by (intros u H y Hy; rewrite Forall_forall in H; exact (H y Hy)).
  repeat apply rd_sum; [apply rd_one; apply rd_group; apply rd_sum; [apply rd_one; apply rd_n|]| | |apply rd_n]; apply rd_wrong;
    first [apply Hflat; repeat constructor; discriminate | discriminate | constructor].
Qed.
Example C100_example : api_syntax no_vals self br_syntax /\ bracket_rules br_base 3 4 /\ makes env0 br_syntax P_br [] /\ productive (gram br_syntax) /\ ~ cyclic (gram br_syntax) 0 /\
  total_on self br_syntax w_br /\ br_reads (NT 0) w_br (NonTerminal v_br) /\ returns self P_br w_br (ROk v_br).
Proof.
  split; [apply br_api|]. split; [apply br_rules|]. split; [apply br_makes|]. split; [apply br_productive|]. split; [apply br_acyclic|]. split; [apply br_total|].
  split; [apply br_reading|]. exists 300. vm_compute. reflexivity.
Qed.

(** ** Brackets inside a wrong content are not matched: a closing one inside may end it, so an input whose brackets match may be
    rejected, and one whose brackets do not may be accepted.
    ( n ( n ) + n )      ( n ( ) *)
Theorem C100_flat_needed : api_syntax no_vals self br_syntax /\ bracket_rules br_base 3 4 /\ makes env0 br_syntax P_br [] /\
  ~ is_stmt self (sx_rules br_syntax) 0 [0; 3; 0; 4; 1; 0] /\ returns self P_br [3; 0; 3; 0; 4; 1; 0; 4] RNotFound /\
  ~ is_stmt self (sx_rules br_syntax) 0 [0; 3] /\ returns self P_br [3; 0; 3; 4] (ROk [[100; 0; 3]]).
Proof.
  split; [apply br_api|]. split; [apply br_rules|]. split; [apply br_makes|]. split; [apply br_wrong; discriminate|]. split; [exists 300; vm_compute; reflexivity|].
  split; [apply br_wrong; discriminate|]. exists 300; vm_compute; reflexivity.
Qed.
Print Assumptions C100_flat_needed.
