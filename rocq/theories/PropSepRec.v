(** * Property C101: separated lists with error recovery *)
From Coq Require Import List Arith Lia Bool Permutation.
From Verif Require Import Lib Grammar LrModel LrSpec LrTop ParseModel Trees ParseSpec ParseInv ParseComplete GramFacts ParseTerm ParseTop ParseMore ParseCover ParseExamples PropParse PropRecover ProdCheck NumSpec PropNum StmtSpec PropStmt ListSpec NestSpec NestProofs NestCyc OuterGrams PropNest SepRecSpec ParseSepRec.
Import ListNotations.

(** what a parser for such a list returns is what the items say, one by one *)
Theorem C101_items : forall N T E (nix : N -> nat) (tix : T -> nat) e base X R sep (g1 g2 g3 : reducer N T E) P w v,
  let s := rec_list base X R sep g1 g2 g3 in
  api_syntax nix tix s -> statement_rules base X R sep -> makes e s P [] -> productive (gram s) ->
  returns tix P w (ROk v) -> read_list tix base X sep g1 g2 g3 w v.
Proof.
  intros N T E nix tix e base X R sep g1 g2 g3 P w v s Ha Hb Hmk Hp Hr. destruct (makes_made nix tix e s P [] Ha Hmk) as [ss Hm].
  destruct (list_result tix base X R sep g1 g2 g3 Hb P ss w Hm Hp) as [(v' & H1 & H2 & _)|[[H1 _]|[H1|(x & H1)]]].
  - pose proof (returns_det _ _ _ _ _ Hr H1) as E0. injection E0 as ->. exact H2.
  - pose proof (returns_det _ _ _ _ _ Hr H1). discriminate.
  - exfalso. eapply panic_not_return; eauto.
  - pose proof (returns_det _ _ _ _ _ Hr H1). discriminate.
Qed.
Print Assumptions C101_items.

(** when the reducers do not fail: every input whose last item is right has such a value, and it is returned; every other
    input is rejected *)
Theorem C101_exact : forall N T E (nix : N -> nat) (tix : T -> nat) e base X R sep (g1 g2 g3 : reducer N T E) P w,
  let s := rec_list base X R sep g1 g2 g3 in
  api_syntax nix tix s -> statement_rules base X R sep -> makes e s P [] -> productive (gram s) -> total_on tix s w ->
  (forall v, returns tix P w (ROk v) <-> read_list tix base X sep g1 g2 g3 w v) /\
  (last_right tix base X sep w -> exists v, read_list tix base X sep g1 g2 g3 w v) /\
  (~ last_right tix base X sep w -> returns tix P w RNotFound).
Proof.
  intros N T E nix tix e base X R sep g1 g2 g3 P w s Ha Hb Hmk Hp Ht. destruct (makes_made nix tix e s P [] Ha Hmk) as [ss Hm].
  assert (Hres : (exists v, returns tix P w (ROk v) /\ read_list tix base X sep g1 g2 g3 w v /\ last_right tix base X sep w) \/ (returns tix P w RNotFound /\ ~ last_right tix base X sep w)).
  { destruct (nil_dec w) as [Hw|Hw].
    - right. split; [exact (empty_rejected tix base X R sep g1 g2 g3 Hb P ss w Hm Hw)|]. subst w. eapply nothing_wrong; eauto.
    - destruct (list_result tix base X R sep g1 g2 g3 Hb P ss w Hm Hp) as [H|[H|Hbad]]; auto. exfalso.
      destruct (C23_decides_with_recovery_partial _ _ _ nix tix e s P w Ha Hmk Hp (list_apart base X R sep g1 g2 g3 Hb) (or_introl Hw) Ht) as [fuel Hf].
      assert (Ho : exists o, returns tix P w o /\ forall x, o <> RReducer x).
      { destruct Hf as [(_ & _ & v & H)|(_ & _ & [H|[v H]])]; eexists; (split; [exists fuel; exact H|discriminate]). }
      destruct Ho as (o & Ho & Hn). destruct Hbad as [H|[x H]]; [eapply panic_not_return; eauto|]. apply (Hn x). eapply returns_det; eauto. }
  assert (Hdec : forall v, read_list tix base X sep g1 g2 g3 w v -> returns tix P w (ROk v)).
  { intros v Hv. destruct Hres as [(v' & H1 & H2 & _)|[_ H2]].
    - rewrite (read_det tix base X R sep g1 g2 g3 Hb P ss Hm _ _ _ Hv H2). exact H1.
    - exfalso. apply H2. eapply read_right; eauto. }
  repeat split; auto.
  - intros Hr. eapply C101_items; eauto.
  - intros Hf. destruct Hres as [(v & _ & H & _)|[_ H]]; [eauto|contradiction].
  - intros Hf. destruct Hres as [(v & _ & _ & H)|[H _]]; [contradiction|auto].
Qed.
Print Assumptions C101_exact.

(** ** The parser for such a list can be made *)
(** R ::= x sep R | error sep R | x *)
Definition o_rec : list orule := [ (tt, [Terminal true; Terminal false; NonTerminal tt], onop); (tt, [ErrorSym tt; Terminal false; NonTerminal tt], onop); (tt, [Terminal true], onop) ].
Section OuterRec.
  Variables (R x b : nat).
  Hypothesis Hx : x <> b.
  Definition g_rec : syntax unit bool unit := coded (const R) (numbers x b) tt o_rec.
  Lemma g_rec_made : exists P, makes env0 g_rec P [].
  Proof. apply outer_made; auto; [discriminate|]. eexists. split; [apply env0_ok|]. exists 1000. vm_compute. reflexivity. Qed.
  Lemma g_rec_gram : gram g_rec = [ mk_rule R [TM (TSym x); TM (TSym b); NT R]; mk_rule R [TM TErr; TM (TSym b); NT R]; mk_rule R [TM (TSym x)] ].
  Proof. reflexivity. Qed.
  Lemma g_rec_prod : productive (gram g_rec).
  Proof.
    assert (HR : der (gram g_rec) (NT R) ([TSym x] ++ [])). { rewrite g_rec_gram. change (NT R) with (NT (r_lhs (mk_rule R [TM (TSym x)]))). constructor; [simpl; auto|]. constructor; constructor. }
    rewrite g_rec_gram in *. intros r Y Hr HY. repeat destruct Hr as [<-|Hr]; try destruct Hr; simpl in HY; repeat destruct HY as [<-|HY]; try destruct HY; eauto; eexists; constructor.
  Qed.
  Lemma g_rec_twice : never_twice (gram g_rec) R x.
  Proof. apply separated_twice. rewrite g_rec_gram. repeat apply Forall_cons; try apply Forall_nil; simpl; repeat split; auto; first [left; exists (TSym b); split; congruence|right; exists (TSym b); split; congruence]. Qed.
End OuterRec.

Theorem C101_made : forall N T E (nix : N -> nat) (tix : T -> nat) e0 e base X R sep (g1 g2 g3 : reducer N T E) P0,
  let items := mk_syntax base X in let s := rec_list base X R sep g1 g2 g3 in
  api_syntax nix tix items -> makes e0 items P0 [] -> productive (gram items) -> start_defined items -> ~ cyclic (gram items) X ->
  statement_rules base X R sep -> lr_env_ok e ->
  api_syntax nix tix s /\ productive (gram s) /\ exists P, makes e s P [].
Proof.
  intros N T E nix tix e0 e base X R sep g1 g2 g3 P0 items s Ha0 Hm0 Hp Hs Hc [HX Hb] He.
  destruct (fresh_token (gram items) sep) as (x & Hx & Hf).
  assert (Hin : forall r, In r (gram items) -> exists c, In c base /\ cr_rule c = r) by (intros r Hr; apply in_map_iff in Hr as (c & <- & Hc'); eauto).
  assert (Ha : api_syntax nix tix s) by (apply (api_more nix tix base _ X); [exact Ha0|raw_rules]). split; auto.
  assert (Hn : nested (g_rec R x sep) x items s).
  { split; [reflexivity|]. apply Permutation_refl'. rewrite g_rec_gram. etransitivity; [exact (gram_more base _ X R)|]. f_equal. unfold put_rule. simpl.
    rewrite Nat.eqb_refl. destruct (Nat.eqb_spec sep x); [congruence|]. reflexivity. }
  assert (Hd : disjoint_grammars (gram (g_rec R x sep)) (gram items)).
  { rewrite g_rec_gram. split.
    - intros t (r & Hr & Ht) (r' & Hr' & Ht'). destruct (Hin r' Hr') as (c & Hc' & <-). destruct (Hb c Hc') as (_ & _ & _ & H1 & H2).
      assert (Hcs : t = TSym x \/ t = TSym sep \/ t = TErr) by (repeat destruct Hr as [<-|Hr]; try destruct Hr; simpl in Ht; intuition congruence).
      destruct Hcs as [->|[->| ->]]; auto. apply Hf. exists (cr_rule c). auto.
    - intros A (r & Hr & HA) (r' & Hr' & HA'). assert (A = R) as ->.
      { repeat destruct Hr as [<-|Hr]; try destruct Hr; simpl in HA; intuition congruence. }
      destruct (Hin r' Hr') as (c & Hc' & <-). destruct (Hb c Hc') as (H1 & _ & H2 & _). tauto. }
  assert (Hs1 : start_defined (g_rec R x sep)) by (exists (mk_rule R [TM (TSym x)]); split; [rewrite g_rec_gram; simpl; auto|reflexivity]).
  split; [exact (nest_productive (g_rec R x sep) x items s Hn (g_rec_prod R x sep) Hp Hs)|].
  destruct (g_rec_made R x sep Hx) as [P1 HP1].
  eapply (C78_nested unit bool unit N T E N T E (const R) (numbers x sep) nix tix nix tix env0 e0 e (g_rec R x sep) items s x P1 P0); eauto.
  - apply coded_api.
  - apply g_rec_prod.
  - apply g_rec_twice. auto.
  - intros D. eapply (proj1 (no_empty_der (gram items) (fun r Hr => ltac:(destruct (Hin r Hr) as (c & Hc' & <-); destruct (Hb c Hc') as (_ & H1 & _); exact H1)))); eauto.
Qed.
Print Assumptions C101_made.

(** ** Example: the items of [PropStmt]: X ::= E; E ::= E + n | n | ( E ), with n = 0, + = 1, the separator 2, ( = 3, ) = 4 *)
Definition sr_g3 (l : list (arg vals nat)) : gres vals nat := match l with [NonTerminal a] => GOk a | _ => GPanic end.
Definition sr_syntax : syntax vals nat nat := rec_list st_base 0 1 2 st_g1 st_g2 sr_g3.
Definition P_sr : parser vals nat nat := Eval vm_compute in made_parser (lr1_new env0 100 sr_syntax).
Lemma sr_makes : makes env0 sr_syntax P_sr [].
Proof. mk. Qed.
Lemma sr_total w : total_on self sr_syntax w.
Proof.
  exists (fun _ _ => True). intros r args Hr (Hf & _) _. simpl in Hr. repeat destruct Hr as [<-|Hr]; try destruct Hr; simpl in *.
  all: repeat match goal with H : Forall2 _ (_ :: _) _ |- _ => inversion H; clear H; subst | H : Forall2 _ [] _ |- _ => inversion H; clear H; subst
    | H : fits _ _ ?a |- _ => destruct a; simpl in H; try contradiction end.
  all: simpl; eexists; split; [reflexivity|exact I].
Qed.
(** n , n + , n n n , , + , n , ( , ( n ) *)
Definition w_sr : list nat := [0; 2;  0; 1; 2;  0; 0; 0; 2;  2;  1; 2;  0; 2;  3; 2;  3; 0; 4].
Example C101_example : api_syntax no_vals self sr_syntax /\ statement_rules st_base 0 1 2 /\ makes env0 sr_syntax P_sr [] /\ productive (gram sr_syntax) /\ total_on self sr_syntax w_sr /\
  returns self P_sr w_sr (ROk [[0]; [100; 0; 1]; [100; 0; 0; 0]; [100; 2]; [100; 1]; [0]; [100; 3; 2]; [0]]) /\
  last_right self st_base 0 2 w_sr /\ returns self P_sr (w_sr ++ [2]) RNotFound /\ returns self P_sr (w_sr ++ [1]) RNotFound.
Proof.
  split; [raw_rules|]. split; [apply st_rules|]. split; [apply sr_makes|]. split; [apply (prod_check_sound _ 4); reflexivity|]. split; [apply sr_total|].
  split; [exists 200; vm_compute; reflexivity|]. split; [|split; exists 200; vm_compute; reflexivity].
  assert (Hr : returns self P_sr w_sr (ROk [[0]; [100; 0; 1]; [100; 0; 0; 0]; [100; 2]; [100; 1]; [0]; [100; 3; 2]; [0]])) by (exists 200; vm_compute; reflexivity).
  destruct (C101_exact _ _ _ no_vals self env0 st_base 0 1 2 st_g1 st_g2 sr_g3 P_sr w_sr ltac:(raw_rules) st_rules sr_makes ltac:(apply (prod_check_sound _ 4); reflexivity) (sr_total w_sr)) as (_ & _ & H).
  exists [3; 0; 4]. split; [intros y Hy; simpl in Hy; unfold self; lia|]. split.
  - unfold is_stmt. change (kinds self [3; 0; 4]) with ([TSym 3; TSym 0; TSym 4] ++ []). change (NT 0) with (NT (r_lhs (mk_rule 0 [NT 2]))). constructor; [simpl; auto|]. constructor; [|constructor].
    change (NT 2) with (NT (r_lhs (mk_rule 2 [TM (TSym 3); NT 2; TM (TSym 4)]))). constructor; [simpl; auto|]. change [TSym 3; TSym 0; TSym 4] with ([TSym 3] ++ ([TSym 0] ++ []) ++ [TSym 4] ++ []).
    constructor; [constructor|]. constructor; [|constructor; constructor].
    change (NT 2) with (NT (r_lhs (mk_rule 2 [TM (TSym 0)]))). constructor; [simpl; auto|]. constructor; constructor.
  - right. exists (firstn 15 w_sr), 2. split; reflexivity.
Qed.

(** ** With R ::= error in addition, a wrong last item is reported when something shows that it is wrong; an item that only lacks
    its end still is not *)
Definition sl_g4 (l : list (arg vals nat)) : gres vals nat := match l with [ErrorSym a] => GOk [100 :: a] | _ => GPanic end.
Definition sl_syntax : syntax vals nat nat := mk_syntax (sx_rules sr_syntax ++ [rule_new_raw 1 [ErrorSym tt] sl_g4]) 1.
Definition P_sl : parser vals nat nat := Eval vm_compute in made_parser (lr1_new env0 100 sl_syntax).
(** n , + gives the error; n , n + is rejected; for n , the first token of the input is reported; the empty input makes it panic *)
Theorem C101_last_item_refuted : api_syntax no_vals self sl_syntax /\ makes env0 sl_syntax P_sl [] /\
  returns self P_sl [0; 2; 1] (ROk [[0]; [100; 1]]) /\ returns self P_sl [0; 2; 0; 1] RNotFound /\
  returns self P_sl [3; 0; 4; 2] (ROk [[0]; [100; 3]]) /\ panics self P_sl [].
Proof. split; [raw_rules|]. split; [mk|]. repeat split; exists 200; vm_compute; reflexivity. Qed.
Print Assumptions C101_last_item_refuted.

(** the rules of the items may have no empty right-hand side: X ::= A n; A ::= ( | (nothing) *)
Definition se_syntax : syntax vals nat nat := rec_list em_base 0 1 2 st_g1 st_g2 sr_g3.
Definition P_se : parser vals nat nat := Eval vm_compute in made_parser (lr1_new env0 100 se_syntax).
Theorem C101_empty_rules_refuted : api_syntax no_vals self se_syntax /\ makes env0 se_syntax P_se [] /\
  returns self P_se [0; 1; 2; 0] (ROk [[100; 1]; [0]]) /\ ~ read_list self em_base 0 2 st_g1 st_g2 sr_g3 [0; 1; 2; 0] [[100; 1]; [0]].
Proof.
  split; [raw_rules|]. split; [mk|]. split; [exists 200; vm_compute; reflexivity|]. intros H.
  assert (Hval : forall u a, value self em_base (NT 0) u a -> a = NonTerminal [[0]]).
  { intros u a Hv. inversion Hv as [|r u0 args v Hr _ Hg E1 E2 E3]. subst. destruct Hr as [<-|[<-|[<-|[]]]]; cbv in Hg; injection Hg as <-; try discriminate E1; reflexivity. }
  inversion H as [u a v Hu Hv Hg E0|u x rest a v' v Hu Hx Hv Hr Hg E0 E1|u x rest sl v' v Hu Hx Hns Hsl Hr Hg E0 E1].
  - rewrite (Hval _ _ Hv) in Hg. simpl in Hg. discriminate.
  - rewrite (Hval _ _ Hv) in Hg. simpl in Hg. discriminate.
  - destruct u as [|? [|? [|? [|? [|? ?]]]]]; simpl in E0; injection E0; intros; subst; try discriminate. inversion Hsl; subst. simpl in Hg. discriminate.
Qed.
Print Assumptions C101_empty_rules_refuted.
