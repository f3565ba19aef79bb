(** * Property C102: separated lists written with left recursion, with error recovery *)
From Coq Require Import List Arith Lia Bool Permutation.
From Verif Require Import Lib Grammar LrModel LrSpec LrTop ParseModel Trees ParseSpec ParseInv ParseComplete GramFacts ParseTerm ParseTop ParseMore ParseCover ParseExamples PropParse PropRecover ProdCheck NumSpec PropNum StmtSpec PropStmt ListSpec NestSpec NestProofs NestCyc OuterGrams PropNest LeftRecSpec ParseLeftRec.
Import ListNotations.

(** what a parser for such a list returns is what the pieces say, one by one *)
Theorem C102_items : forall N T E (nix : N -> nat) (tix : T -> nat) e base X R sep (g1 g2 g3 g4 : reducer N T E) P w v,
  let s := left_rec base X R sep g1 g2 g3 g4 in
  api_syntax nix tix s -> statement_rules base X R sep -> makes e s P [] -> productive (gram s) ->
  returns tix P w (ROk v) -> left_value tix base X sep g1 g2 g3 g4 w w None v.
Proof.
  intros N T E nix tix e base X R sep g1 g2 g3 g4 P w v s Ha Hb Hmk Hp Hr. destruct (makes_made nix tix e s P [] Ha Hmk) as [ss Hm].
  destruct (nil_dec w) as [Hw|Hw].
  - exfalso. eapply panic_not_return; [|exact Hr]. eapply empty_panics; eauto.
  - destruct (list_result tix base X R sep g1 g2 g3 g4 Hb P ss w Hm Hp Hw) as [(v' & H1 & H2)|[[H1 _]|[H1|(x & H1)]]].
    + pose proof (returns_det _ _ _ _ _ Hr H1) as E0. injection E0 as ->. exact H2.
    + pose proof (returns_det _ _ _ _ _ Hr H1). discriminate.
    + exfalso. eapply panic_not_return; eauto.
    + pose proof (returns_det _ _ _ _ _ Hr H1). discriminate.
Qed.
Print Assumptions C102_items.

(** when the reducers do not fail, on an input that is not empty: it is rejected when it stops within an item; every other
    input has such a value, and it is returned *)
Theorem C102_exact : forall N T E (nix : N -> nat) (tix : T -> nat) e base X R sep (g1 g2 g3 g4 : reducer N T E) P w,
  let s := left_rec base X R sep g1 g2 g3 g4 in
  api_syntax nix tix s -> statement_rules base X R sep -> makes e s P [] -> productive (gram s) -> total_on tix s w -> w <> [] ->
  (forall v, returns tix P w (ROk v) <-> left_value tix base X sep g1 g2 g3 g4 w w None v) /\
  (~ unfinished tix base X sep w -> exists v, left_value tix base X sep g1 g2 g3 g4 w w None v) /\
  (unfinished tix base X sep w -> returns tix P w RNotFound).
Proof.
  intros N T E nix tix e base X R sep g1 g2 g3 g4 P w s Ha Hb Hmk Hp Ht Hw. destruct (makes_made nix tix e s P [] Ha Hmk) as [ss Hm].
  assert (Hres : (exists v, returns tix P w (ROk v) /\ left_value tix base X sep g1 g2 g3 g4 w w None v) \/ (returns tix P w RNotFound /\ unfinished tix base X sep w)).
  { destruct (list_result tix base X R sep g1 g2 g3 g4 Hb P ss w Hm Hp Hw) as [H|[H|Hbad]]; auto. exfalso.
    destruct (C23_decides_with_recovery_partial _ _ _ nix tix e s P w Ha Hmk Hp (list_apart base X R sep g1 g2 g3 g4 Hb P ss Hm) (or_introl Hw) Ht) as [fuel Hf].
    assert (Ho : exists o, returns tix P w o /\ forall x, o <> RReducer x).
    { destruct Hf as [(_ & _ & v & H)|(_ & _ & [H|[v H]])]; eexists; (split; [exists fuel; exact H|discriminate]). }
    destruct Ho as (o & Ho & Hn). destruct Hbad as [H|[x H]]; [eapply panic_not_return; eauto|]. apply (Hn x). eapply returns_det; eauto. }
  assert (Hfin : forall v, left_value tix base X sep g1 g2 g3 g4 w w None v -> ~ unfinished tix base X sep w) by (intros v Hv; eapply left_finished; eauto).
  assert (Hdec : forall v, left_value tix base X sep g1 g2 g3 g4 w w None v -> returns tix P w (ROk v)).
  { intros v Hv. destruct Hres as [(v' & H1 & H2)|[_ H2]].
    - assert (v = v') as -> by (eapply (left_det tix base X R sep g1 g2 g3 g4); eauto). exact H1.
    - exfalso. eapply Hfin; eauto. }
  repeat split; auto.
  - intros Hr. eapply C102_items; eauto.
  - intros Hf. destruct Hres as [(v & _ & H)|[_ H]]; [eauto|contradiction].
  - intros Hf. destruct Hres as [(v & _ & H)|[H _]]; [exfalso; eapply Hfin; eauto|auto].
Qed.
Print Assumptions C102_exact.

(** the empty input makes it panic *)
Theorem C102_empty : forall N T E (nix : N -> nat) (tix : T -> nat) e base X R sep (g1 g2 g3 g4 : reducer N T E) P,
  let s := left_rec base X R sep g1 g2 g3 g4 in
  api_syntax nix tix s -> statement_rules base X R sep -> makes e s P [] -> productive (gram s) -> panics tix P [].
Proof.
  intros N T E nix tix e base X R sep g1 g2 g3 g4 P s Ha Hb Hmk Hp. destruct (makes_made nix tix e s P [] Ha Hmk) as [ss Hm]. eapply empty_panics; eauto.
Qed.
Print Assumptions C102_empty.

(** ** The parser for such a list can be made *)
(** R ::= x | error | R sep x | R sep error *)
Definition o_left : list orule := [ (tt, [Terminal true], onop); (tt, [ErrorSym tt], onop); (tt, [NonTerminal tt; Terminal false; Terminal true], onop); (tt, [NonTerminal tt; Terminal false; ErrorSym tt], onop) ].
Section OuterLeft.
  Variables (R x b : nat).
  Hypothesis Hx : x <> b.
  Definition g_left : syntax unit bool unit := coded (const R) (numbers x b) tt o_left.
  Lemma g_left_made : exists P, makes env0 g_left P [].
  Proof. apply outer_made; auto; [discriminate|]. eexists. split; [apply env0_ok|]. exists 1000. vm_compute. reflexivity. Qed.
  Lemma g_left_gram : gram g_left = [ mk_rule R [TM (TSym x)]; mk_rule R [TM TErr]; mk_rule R [NT R; TM (TSym b); TM (TSym x)]; mk_rule R [NT R; TM (TSym b); TM TErr] ].
  Proof. reflexivity. Qed.
  Lemma g_left_prod : productive (gram g_left).
  Proof.
    assert (HR : der (gram g_left) (NT R) ([TSym x] ++ [])). { rewrite g_left_gram. change (NT R) with (NT (r_lhs (mk_rule R [TM (TSym x)]))). constructor; [simpl; auto|]. constructor; constructor. }
    rewrite g_left_gram in *. intros r Y Hr HY. repeat destruct Hr as [<-|Hr]; try destruct Hr; simpl in HY; repeat destruct HY as [<-|HY]; try destruct HY; eauto; eexists; constructor.
  Qed.
  Lemma g_left_twice : never_twice (gram g_left) R x.
  Proof. apply separated_twice. rewrite g_left_gram. repeat apply Forall_cons; try apply Forall_nil; simpl; repeat split; auto; first [left; exists (TSym b); split; congruence|right; exists (TSym b); split; congruence]. Qed.
End OuterLeft.

Theorem C102_made : forall N T E (nix : N -> nat) (tix : T -> nat) e0 e base X R sep (g1 g2 g3 g4 : reducer N T E) P0,
  let items := mk_syntax base X in let s := left_rec base X R sep g1 g2 g3 g4 in
  api_syntax nix tix items -> makes e0 items P0 [] -> productive (gram items) -> start_defined items -> ~ cyclic (gram items) X ->
  statement_rules base X R sep -> lr_env_ok e ->
  api_syntax nix tix s /\ productive (gram s) /\ exists P, makes e s P [].
Proof.
  intros N T E nix tix e0 e base X R sep g1 g2 g3 g4 P0 items s Ha0 Hm0 Hp Hs Hc [HX Hb] He.
  destruct (fresh_token (gram items) sep) as (x & Hx & Hf).
  assert (Hin : forall r, In r (gram items) -> exists c, In c base /\ cr_rule c = r) by (intros r Hr; apply in_map_iff in Hr as (c & <- & Hc'); eauto).
  assert (Ha : api_syntax nix tix s) by (apply (api_more nix tix base _ X); [exact Ha0|raw_rules]). split; auto.
  assert (Hn : nested (g_left R x sep) x items s).
  { split; [reflexivity|]. apply Permutation_refl'. rewrite g_left_gram. etransitivity; [exact (gram_more base _ X R)|]. f_equal. unfold put_rule. simpl.
    rewrite Nat.eqb_refl. destruct (Nat.eqb_spec sep x); [congruence|]. reflexivity. }
  assert (Hd : disjoint_grammars (gram (g_left R x sep)) (gram items)).
  { rewrite g_left_gram. split.
    - intros t (r & Hr & Ht) (r' & Hr' & Ht'). destruct (Hin r' Hr') as (c & Hc' & <-). destruct (Hb c Hc') as (_ & _ & _ & H1 & H2).
      assert (Hcs : t = TSym x \/ t = TSym sep \/ t = TErr) by (repeat destruct Hr as [<-|Hr]; try destruct Hr; simpl in Ht; intuition congruence).
      destruct Hcs as [->|[->| ->]]; auto. apply Hf. exists (cr_rule c). auto.
    - intros A (r & Hr & HA) (r' & Hr' & HA'). assert (A = R) as ->.
      { repeat destruct Hr as [<-|Hr]; try destruct Hr; simpl in HA; intuition congruence. }
      destruct (Hin r' Hr') as (c & Hc' & <-). destruct (Hb c Hc') as (H1 & _ & H2 & _). tauto. }
  assert (Hs1 : start_defined (g_left R x sep)) by (exists (mk_rule R [TM (TSym x)]); split; [rewrite g_left_gram; simpl; auto|reflexivity]).
  split; [exact (nest_productive (g_left R x sep) x items s Hn (g_left_prod R x sep) Hp Hs)|].
  destruct (g_left_made R x sep Hx) as [P1 HP1].
  eapply (C78_nested unit bool unit N T E N T E (const R) (numbers x sep) nix tix nix tix env0 e0 e (g_left R x sep) items s x P1 P0); eauto.
  - apply coded_api.
  - apply g_left_prod.
  - apply g_left_twice. auto.
  - intros D. eapply (proj1 (no_empty_der (gram items) (fun r Hr => ltac:(destruct (Hin r Hr) as (c & Hc' & <-); destruct (Hb c Hc') as (_ & H1 & _); exact H1)))); eauto.
Qed.
Print Assumptions C102_made.

(** ** Example: the items of [PropStmt]: X ::= E; E ::= E + n | n | ( E ), with n = 0, + = 1, the separator 2, ( = 3, ) = 4 *)
Definition lr_g1 (l : list (arg vals nat)) : gres vals nat := match l with [NonTerminal a] => GOk a | _ => GPanic end.
Definition lr_g2 (l : list (arg vals nat)) : gres vals nat := match l with [ErrorSym a] => GOk [100 :: a] | _ => GPanic end.
Definition lr_g3 (l : list (arg vals nat)) : gres vals nat := match l with [NonTerminal a; Terminal _; NonTerminal b] => GOk (a ++ b) | _ => GPanic end.
Definition lr_g4 (l : list (arg vals nat)) : gres vals nat := match l with [NonTerminal a; Terminal _; ErrorSym b] => GOk (a ++ [100 :: b]) | _ => GPanic end.
Definition lr_syntax : syntax vals nat nat := left_rec st_base 0 1 2 lr_g1 lr_g2 lr_g3 lr_g4.
Definition P_lr : parser vals nat nat := Eval vm_compute in made_parser (lr1_new env0 100 lr_syntax).
Lemma lr_makes : makes env0 lr_syntax P_lr [].
Proof. mk. Qed.
Lemma lr_total w : total_on self lr_syntax w.
Proof.
  exists (fun _ _ => True). intros r args Hr (Hf & _) _. simpl in Hr. repeat destruct Hr as [<-|Hr]; try destruct Hr; simpl in *.
  all: repeat match goal with H : Forall2 _ (_ :: _) _ |- _ => inversion H; clear H; subst | H : Forall2 _ [] _ |- _ => inversion H; clear H; subst
    | H : fits _ _ ?a |- _ => destruct a; simpl in H; try contradiction end.
  all: simpl; eexists; split; [reflexivity|exact I].
Qed.
(** n + , n , + , , ( , n n n *)
Definition w_lr : list nat := [0; 1; 2;  0; 2;  1; 2;  2;  3; 2;  0; 0; 0].
Definition v_lr : vals := [[100; 0; 1]; [0]; [100; 1]; [100; 2]; [100; 3; 2]; [100; 0; 0; 0]].
Lemma lr_unfinished : unfinished self st_base 0 2 (w_lr ++ [2; 3; 0]).
Proof.
  assert (Hn : der (map cr_rule st_base) (NT 2) ([TSym 0] ++ [])).
  { change (NT 2) with (NT (r_lhs (mk_rule 2 [TM (TSym 0)]))). constructor; [simpl; auto|]. constructor; constructor. }
  exists [3; 0]. split; [intros y Hy; simpl in Hy; unfold self; lia|]. split; [discriminate|]. split; [|split].
  - exists [TSym 4]. change (kinds self [3; 0] ++ [TSym 4]) with ([TSym 3; TSym 0; TSym 4] ++ []). change (NT 0) with (NT (r_lhs (mk_rule 0 [NT 2]))). constructor; [simpl; auto|]. constructor; [|constructor].
    change (NT 2) with (NT (r_lhs (mk_rule 2 [TM (TSym 3); NT 2; TM (TSym 4)]))). constructor; [simpl; auto|]. change [TSym 3; TSym 0; TSym 4] with ([TSym 3] ++ ([TSym 0] ++ []) ++ [TSym 4] ++ []).
    constructor; [constructor|]. constructor; auto. constructor; constructor.
  - (* as many ( as ) *)
    set (count := fun t u => length (filter (fun y => match y with TSym a => a =? t | _ => false end) u)).
    assert (Hc : (forall Y u, der (map cr_rule st_base) Y u -> (forall t, Y <> TM t) -> count 3 u = count 4 u) /\
      (forall l u, ders (map cr_rule st_base) l u -> length (filter (fun Y => match Y with TM (TSym 3) => true | _ => false end) l) = length (filter (fun Y => match Y with TM (TSym 4) => true | _ => false end) l) -> True)).
    { split; [|auto]. intros Y u H. apply (proj1 (der_ders_ind (map cr_rule st_base) (fun Y u => (forall t, Y <> TM t) -> count 3 u = count 4 u)
        (fun l u => count 3 u + length (filter (fun Y => match Y with TM (TSym 4) => true | _ => false end) l) = count 4 u + length (filter (fun Y => match Y with TM (TSym 3) => true | _ => false end) l))
        ltac:(intros t Ht; destruct (Ht t eq_refl)) ltac:(intros r v Hr _ IH _; simpl in Hr; repeat destruct Hr as [<-|Hr]; try destruct Hr; cbn in IH; lia) ltac:(reflexivity)
        ltac:(intros Y0 l v v' H1 IH1 _ IH2; unfold count in *; rewrite !filter_app, !app_length; destruct Y0 as [A|t]; [specialize (IH1 ltac:(discriminate)); simpl; lia|];
          inversion H1; subst; destruct t as [a| |]; simpl; try lia; destruct a as [|[|[|[|[|a]]]]]; simpl; lia)) _ _ H). }
    intros H. apply (proj1 Hc) in H; [|discriminate]. cbv in H. discriminate.
  - right. exists w_lr, 2. split; reflexivity.
Qed.
Example C102_example : api_syntax no_vals self lr_syntax /\ statement_rules st_base 0 1 2 /\ makes env0 lr_syntax P_lr [] /\ productive (gram lr_syntax) /\ (forall w, total_on self lr_syntax w) /\
  returns self P_lr w_lr (ROk v_lr) /\ left_value self st_base 0 2 lr_g1 lr_g2 lr_g3 lr_g4 w_lr w_lr None v_lr /\
  returns self P_lr (w_lr ++ [2; 0]) (ROk (v_lr ++ [[0]])) /\ returns self P_lr (w_lr ++ [2]) (ROk (v_lr ++ [[100; 0]])) /\
  unfinished self st_base 0 2 (w_lr ++ [2; 3; 0]) /\ returns self P_lr (w_lr ++ [2; 3; 0]) RNotFound.
Proof.
  assert (Hp : productive (gram lr_syntax)) by (apply (prod_check_sound _ 4); reflexivity).
  assert (Hr : returns self P_lr w_lr (ROk v_lr)) by (exists 200; vm_compute; reflexivity).
  split; [raw_rules|]. split; [apply st_rules|]. split; [apply lr_makes|]. split; auto. split; [apply lr_total|]. split; auto.
  split; [exact (C102_items _ _ _ no_vals self env0 st_base 0 1 2 lr_g1 lr_g2 lr_g3 lr_g4 P_lr w_lr v_lr ltac:(raw_rules) st_rules lr_makes Hp Hr)|].
  split; [exists 200; vm_compute; reflexivity|]. split; [exists 200; vm_compute; reflexivity|]. split; [exact lr_unfinished|exists 200; vm_compute; reflexivity].
Qed.

(** the rules of the items may have no empty right-hand side: X ::= A n; A ::= ( | (nothing) *)
Definition le_syntax : syntax vals nat nat := left_rec em_base 0 1 2 lr_g1 lr_g2 lr_g3 lr_g4.
Definition P_le : parser vals nat nat := Eval vm_compute in made_parser (lr1_new env0 100 le_syntax).
Theorem C102_empty_rules_refuted : api_syntax no_vals self le_syntax /\ makes env0 le_syntax P_le [] /\
  returns self P_le [0; 1] (ROk [[100; 1]]) /\ ~ left_value self em_base 0 2 lr_g1 lr_g2 lr_g3 lr_g4 [0; 1] [0; 1] None [[100; 1]].
Proof.
  split; [raw_rules|]. split; [mk|]. split; [exists 200; vm_compute; reflexivity|]. intros H.
  assert (Hval : forall u a, value self em_base (NT 0) u a -> a = NonTerminal [[0]]).
  { intros u a Hv. inversion Hv as [|r u0 args v Hr _ Hg E1 E2 E3]. subst. destruct Hr as [<-|[<-|[<-|[]]]]; cbv in Hg; injection Hg as <-; try discriminate E1; reflexivity. }
  inversion H as [u nx a v Hu Hpc Hg E0|w0 x u nx v0 a v Hl Hx Hu Hpc Hg E0].
  - subst. inversion Hpc as [nx a0 Hv| |Hne Hbg|]; subst; try discriminate. rewrite (Hval _ _ Hv) in Hg. discriminate.
  - destruct w0 as [|? [|? [|? ?]]]; simpl in E0; try discriminate; injection E0; intros; subst; discriminate.
Qed.
Print Assumptions C102_empty_rules_refuted.
