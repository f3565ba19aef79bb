(** * Reducers with effects: C60, C61

    [M] is the type of all that the reducers can read and write besides their arguments; [syntax_at s m0] is the
    syntax whose rules are those of [s], made with the public functions. *)
From Coq Require Import List Arith Lia Bool.
From Verif Require Import Lib Grammar LoopSpec LrModel LrSpec LrTop LrMono ParseModel Trees ParseSpec GramFacts ParseTerm ParseTop ParseExamples ParseRel EffModel EffSpec EffProofs PropParse.
Import ListNotations.

(** ** The example: the sum of a bracketed sum.  The state is a log: which rule has been called, in reverse order, with
    the value of the id.  A value is stamped with the number of calls before; the id 13 is refused, after logging it. *)
Definition elog : Type := list (nat * nat).
Definition note {A} (k v : nat) (r : elog -> gres A nat) : elog -> gres A nat * elog := fun m => (r m, (k, v) :: m).
Definition ee_sum : ereducer elog nat tk nat := fun m l => match l with [NonTerminal a; Terminal _; NonTerminal b] => note 0 0 (fun _ => GOk (a + b)) m | _ => (GPanic, m) end.
Definition ee_one : ereducer elog nat tk nat := fun m l => match l with [NonTerminal a] => note 1 0 (fun _ => GOk a) m | _ => (GPanic, m) end.
Definition ee_paren : ereducer elog nat tk nat := fun m l => match l with [Terminal _; NonTerminal a; Terminal _] => note 2 0 (fun _ => GOk a) m | _ => (GPanic, m) end.
Definition ee_id : ereducer elog nat tk nat := fun m l => match l with
  | [Terminal x] => note 3 (snd x) (fun m => if snd x =? 13 then GErr 77 else GOk (10 * length m + snd x)) m | _ => (GPanic, m) end.
Definition eexpr : esyntax elog nat tk nat := mk_esyntax
  [ mk_erule (mk_rule nE [NT nE; TM (TSym kPlus); NT nT]) ee_sum;
    mk_erule (mk_rule nE [NT nT]) ee_one;
    mk_erule (mk_rule nT [TM (TSym kL); NT nE; TM (TSym kR)]) ee_paren;
    mk_erule (mk_rule nT [TM (TSym kId)]) ee_id ] nE.
Definition P_eexpr : eparser elog nat tk nat :=
  match eff_new env0 100 eexpr with Ok r => fst r | _ => mk_ep (mk_parser [] [] [] [] 0) [] end.
Lemma eexpr_makes : eff_makes env0 eexpr P_eexpr [].
Proof. split; [apply env0_ok|]. exists 100. unfold P_eexpr. vm_compute. reflexivity. Qed.
Lemma eexpr_api m : api_syntax nix0 tkix (syntax_at eexpr m).
Proof.
  unfold api_syntax, syntax_at, eexpr. cbn [es_rules sx_rules map er_rule er_gen]. repeat apply Forall_cons; try apply Forall_nil.
  - apply (api_raw nix0 tkix nE [NT' nE; TM' kPlus; NT' nT]).
  - apply (api_raw nix0 tkix nE [NT' nT]).
  - apply (api_raw nix0 tkix nT [TM' kL; NT' nE; TM' kR]).
  - apply (api_raw nix0 tkix nT [TM' kId]).
Qed.
Lemma eexpr_gram m : gram (syntax_at eexpr m) = gram expr.
Proof. reflexivity. Qed.

(** ** C60: the reducers run as in an evaluation of the tree from left to right, children before their parent *)
Theorem C60_effects : forall M N T E (nix : N -> nat) (tix : T -> nat) e (s : esyntax M N T E) P m0 w t,
  api_syntax nix tix (syntax_at s m0) -> eff_makes e s P [] -> ~ cyclic (map er_rule (es_rules s)) (es_start s) ->
  proper_tree tix (syntax_at s m0) w t -> eff_yields tix P m0 w (eve (egens s) w t m0).
Proof. intros M N T E nix tix e s P m0 w t Ha Hmk Hnc Ht. eapply (eff_complete nix tix e s P [] m0 w Ha Hmk); eauto. Qed.
Print Assumptions C60_effects.

(** a success, also of a parser with warnings, is the evaluation of one tree, and its effects are those of this evaluation *)
Theorem C60_effects_of_success : forall M N T E (nix : N -> nat) (tix : T -> nat) e (s : esyntax M N T E) P ws m0 w v m',
  api_syntax nix tix (syntax_at s m0) -> eff_makes e s P ws -> error_free (syntax_at s m0) -> eff_returns tix P m0 w (ROk v) m' ->
  exists t, proper_tree tix (syntax_at s m0) w t /\ eve (egens s) w t m0 = (GOk (NonTerminal v), m').
Proof. intros M N T E nix tix e s P ws m0 w v m' Ha Hmk Hef (fuel & it & H). eapply (eff_sound nix tix e s P ws m0 w Ha Hmk); eauto. Qed.
Print Assumptions C60_effects_of_success.

(** effects do not keep [parse] from returning *)
Theorem C60_terminates : forall M N T E (nix : N -> nat) (tix : T -> nat) e (s : esyntax M N T E) P ws m0 w,
  api_syntax nix tix (syntax_at s m0) -> eff_makes e s P ws ->
  (ws = [] /\ productive (map er_rule (es_rules s)) \/ loop_free (map er_rule (es_rules s)) (es_start s)) /\
    (error_free (syntax_at s m0) \/ productive (map er_rule (es_rules s)) /\ errors_apart (syntax_at s m0)) \/
  ws = [] /\ derivable tix (syntax_at s m0) w ->
  (exists o m', eff_returns tix P m0 w o m') \/ (exists m', eff_panics tix P m0 w m').
Proof.
  intros M N T E nix tix e s P ws m0 w Ha Hmk H. destruct (eff_ends nix tix e s P ws m0 w Ha Hmk H) as (fuel & r & m' & Hf). unfold eff_returns, eff_panics.
  destruct r as [[o it]| |]; [left; exists o, m', fuel, it; exact Hf|right; exists m', fuel; exact Hf|]. exfalso. unfold eff_parse in Hf. revert Hf. generalize (eff_init P m0 w). clear.
  induction fuel as [|fuel IH]; intros [m st] Hf; [discriminate|]. cbn [loop] in Hf. unfold eff_step at 1 in Hf. pose proof (step_fuel tix (parser_at P m) st) as Hn.
  destruct (parse_step tix (parser_at P m) st) as [st'|r]; [eauto|]. injection Hf as Hf _. apply Hn. f_equal. exact Hf.
Qed.
Print Assumptions C60_terminates.

(** the pure model is the special case of reducers without effects *)
Theorem C60_pure : forall M N T E (tix : T -> nat) (P : parser N T E) fuel (m : M) w,
  eff_parse tix (lift_parser P) fuel m w = match parse_full tix P fuel w with Ok r => Ok (Ok r, m) | Panic => Ok (Panic, m) | OutOfFuel => OutOfFuel end.
Proof.
  intros M N T E tix P fuel m w. unfold eff_parse, parse_full, eff_init.
  assert (EP : parser_at (@lift_parser M N T E P) m = P).
  { unfold parser_at, lift_parser. cbn [ep_tab ep_gens]. rewrite map_map. destruct P as [p gs]. cbn [pr_tab pr_gens]. f_equal. clear. induction gs as [|g gs IH]; simpl; f_equal; auto. }
  rewrite EP. generalize (ps_init P w). induction fuel as [|fuel IH]; intros st; [reflexivity|]. cbn [loop]. unfold eff_step. fold (eff_step tix (@lift_parser M N T E P)). rewrite EP.
  assert (Em : match step_call tix P st with Some (k, args) => snd (ecall (ep_gens (@lift_parser M N T E P)) k m args) | None => m end = m).
  { destruct (step_call tix P st) as [[k args]|]; auto. unfold ecall, lift_parser. cbn [ep_gens]. rewrite nth_error_map. destruct (nth_error (pr_gens P) k); reflexivity. }
  rewrite Em. pose proof (step_fuel tix P st) as Hn. destruct (parse_step tix P st) as [st'|[[o it]| |]]; auto. congruence.
Qed.
Print Assumptions C60_pure.

(** 1+(2+3) started with an entry in the log: the ids are stamped 1, 3 and 5; with 1+(13+3) the error is returned and the
    log has the refused id *)
Example C60_example :
  api_syntax nix0 tkix (syntax_at eexpr [(9, 9)]) /\ eff_makes env0 eexpr P_eexpr [] /\ ~ cyclic (map er_rule (es_rules eexpr)) (es_start eexpr) /\
  error_free (syntax_at eexpr [(9, 9)]) /\ proper_tree tkix (syntax_at eexpr [(9, 9)]) w_expr t_expr /\ proper_tree tkix (syntax_at eexpr [(9, 9)]) w_expr13 t_expr /\
  eve (egens eexpr) w_expr t_expr [(9, 9)] = (GOk (NonTerminal 96), [(0, 0); (2, 0); (0, 0); (3, 3); (1, 0); (3, 2); (1, 0); (3, 1); (9, 9)]) /\
  eve (egens eexpr) w_expr13 t_expr [(9, 9)] = (GErr 77, [(3, 13); (1, 0); (3, 1); (9, 9)]) /\
  eff_parse tkix P_eexpr 100 [(9, 9)] w_expr = Ok (Ok (ROk 96, []), [(0, 0); (2, 0); (0, 0); (3, 3); (1, 0); (3, 2); (1, 0); (3, 1); (9, 9)]) /\
  eff_returns tkix P_eexpr [(9, 9)] w_expr13 (RReducer 77) [(3, 13); (1, 0); (3, 1); (9, 9)] /\
  (productive (map er_rule (es_rules eexpr)) /\ errors_apart (syntax_at eexpr [(9, 9)])).
Proof.
  split; [apply eexpr_api|]. split; [apply eexpr_makes|]. split; [apply (expr_not_cyclic r_id)|]. split; [unfold error_free; rewrite eexpr_gram; apply (expr_free r_id)|].
  split; [apply t_expr_tree|]. split; [apply t_expr_tree13|]. split; [vm_compute; reflexivity|]. split; [vm_compute; reflexivity|]. split; [vm_compute; reflexivity|].
  split; [exists 100; eexists; vm_compute; reflexivity|]. split; [apply (expr_productive r_id)|].
  apply free_apart. unfold error_free. rewrite eexpr_gram. apply (expr_free r_id).
Qed.

(** ** C61: what the reducers do has no influence on how the input is parsed *)
(** Two parsers of the same grammar, made with whatever iteration orders of the hash maps, with other reducers, values, tokens,
    errors and effects, on inputs of the same kinds: they call reducers of the same rules with the same tokens until
    a call fails; and if none fails, they end in the same way after the same tokens. *)
Theorem C61_reducers_do_not_steer : forall M1 N1 T1 E1 M2 N2 T2 E2 (nix1 : N1 -> nat) (nix2 : N2 -> nat) (tix1 : T1 -> nat) (tix2 : T2 -> nat) e1 e2
    (s1 : esyntax M1 N1 T1 E1) (s2 : esyntax M2 N2 T2 E2) P1 P2 ws1 ws2 m1 m2 w1 w2 fuel,
  api_syntax nix1 tix1 (syntax_at s1 m1) -> api_syntax nix2 tix2 (syntax_at s2 m2) -> eff_makes e1 s1 P1 ws1 -> eff_makes e2 s2 P2 ws2 ->
  map er_rule (es_rules s1) = map er_rule (es_rules s2) -> es_start s1 = es_start s2 -> map tix1 w1 = map tix2 w2 ->
  let c1 := eff_calls tix1 P1 fuel m1 w1 in
  let c2 := eff_calls tix2 P2 fuel m2 w2 in
  same_calls w1 w2 c1 c2 /\
  ((forall c, In c c1 -> exists v, snd c = GOk v) -> (forall c, In c c2 -> exists v, snd c = GOk v) ->
   same_end (eff_parse tix1 P1 fuel m1 w1) (eff_parse tix2 P2 fuel m2 w2)).
Proof.
  intros M1 N1 T1 E1 M2 N2 T2 E2 nix1 nix2 tix1 tix2 e1 e2 s1 s2 P1 P2 ws1 ws2 m1 m2 w1 w2 fuel Ha1 Ha2 Hk1 Hk2 Hr Hst Hw.
  destruct (skel_made nix1 tix1 e1 s1 P1 ws1 m1 Ha1 Hk1) as [ss1 D1]. destruct (skel_made nix2 tix2 e2 s2 P2 ws2 m2 Ha2 Hk2) as [ss2 D2].
  pose proof (md_can _ _ _ _ D1) as C1. pose proof (md_can _ _ _ _ D2) as C2. pose proof (md_ss _ _ _ _ D1) as S1. pose proof (md_ss _ _ _ _ D2) as S2.
  rewrite (gram_skel s1) in C1, S1. rewrite (gram_skel s2) in C2, S2. cbn [skel sx_start skel_parser pr_tab] in C1, C2. rewrite <- Hr in C2, S2. rewrite <- Hst in C2.
  assert (ss2 = ss1) by congruence. subst ss2. destruct P1 as [p1 gs1]. destruct P2 as [p2 gs2]. cbn [ep_tab] in *.
  destruct (hash_parse tix1 _ _ p1 p2 gs1 C1 C2 fuel m1 w1) as [-> ->].
  destruct (same_run tix1 tix2 (mk_ep p2 gs1) (mk_ep p2 gs2) eq_refl w1 w2 Hw fuel m1 m2 (ps_init (parser_at (mk_ep p2 gs1) m1) w1) (ps_init (parser_at (mk_ep p2 gs2) m2) w2)) as [A B].
  { apply init_rel; [reflexivity|]. apply (place_all tix1 tix2 w1 w2 Hw). }
  split; [exact A|]. intros H1 H2. destruct B as [(c & B1 & B2)|[(c & B1 & B2)|B]]; [| |exact B].
  - destruct (H1 c B1) as [v Hv]. exfalso. apply (B2 v). auto.
  - destruct (H2 c B1) as [v Hv]. exfalso. apply (B2 v). auto.
Qed.
Print Assumptions C61_reducers_do_not_steer.
(** the logging parser and one, made with another iteration order, whose reducers do nothing, on other tokens of the same kinds *)
Definition enothing : esyntax unit unit nat unit := mk_esyntax (map (fun r => mk_erule (er_rule r) (fun m _ => (GOk tt, m))) (es_rules eexpr)) nE.
Definition P_enothing : eparser unit unit nat unit :=
  match eff_new env1 100 enothing with Ok r => fst r | _ => mk_ep (mk_parser [] [] [] [] 0) [] end.
Example C61_example :
  api_syntax (fun _ => 0) (fun x => x) (syntax_at enothing tt) /\ eff_makes env1 enothing P_enothing [] /\ map er_rule (es_rules eexpr) = map er_rule (es_rules enothing) /\
  map tkix w_expr = [0; 1; 2; 0; 1; 0; 3] /\
  map (fun c => fst (fst c)) (eff_calls tkix P_eexpr 100 [] w_expr) = [3; 1; 3; 1; 3; 0; 2; 0] /\
  map (fun c => fst (fst c)) (eff_calls (fun x => x) P_enothing 100 tt [0; 1; 2; 0; 1; 0; 3]) = [3; 1; 3; 1; 3; 0; 2; 0] /\
  map (fun c => fst (fst c)) (eff_calls tkix P_eexpr 100 [] w_expr13) = [3; 1; 3].
Proof.
  split; [|split; [|repeat split; vm_compute; reflexivity]].
  - unfold api_syntax, syntax_at, enothing, eexpr. cbn [es_rules sx_rules map er_rule er_gen]. repeat apply Forall_cons; try apply Forall_nil.
    + apply (api_raw _ _ nE [NT' nE; TM' kPlus; NT' nT]).
    + apply (api_raw _ _ nE [NT' nT]).
    + apply (api_raw _ _ nT [TM' kL; NT' nE; TM' kR]).
    + apply (api_raw _ _ nT [TM' kId]).
  - split; [apply env1_ok|]. exists 100. unfold P_enothing. vm_compute. reflexivity.
Qed.

(** ** C32 with effects: the iteration orders of the hash maps are not seen by the reducers either *)
Theorem C32_order_independent_effects : forall M N T E (nix : N -> nat) (tix : T -> nat) e1 e2 (s : esyntax M N T E) P1 P2 ws1 ws2 m0 fuel w,
  api_syntax nix tix (syntax_at s m0) -> eff_makes e1 s P1 ws1 -> eff_makes e2 s P2 ws2 ->
  eff_parse tix P1 fuel m0 w = eff_parse tix P2 fuel m0 w /\ eff_calls tix P1 fuel m0 w = eff_calls tix P2 fuel m0 w.
Proof.
  intros M N T E nix tix e1 e2 s P1 P2 ws1 ws2 m0 fuel w Ha Hk1 Hk2.
  destruct (skel_made nix tix e1 s P1 ws1 m0 Ha Hk1) as [ss1 D1]. destruct (skel_made nix tix e2 s P2 ws2 m0 Ha Hk2) as [ss2 D2].
  assert (ss2 = ss1) by (pose proof (md_ss _ _ _ _ D1); pose proof (md_ss _ _ _ _ D2); congruence). subst ss2.
  pose proof (md_can _ _ _ _ D1) as C1. pose proof (md_can _ _ _ _ D2) as C2. cbn [skel_parser pr_tab] in C1, C2.
  pose proof (proj2 (skel_makes _ _ _ _ Hk1)) as G1. pose proof (proj2 (skel_makes _ _ _ _ Hk2)) as G2.
  destruct P1 as [p1 gs1]. destruct P2 as [p2 gs2]. cbn [ep_tab ep_gens] in *. subst gs1 gs2. eapply hash_parse; eauto.
Qed.
Print Assumptions C32_order_independent_effects.
Definition P_eexpr1 : eparser elog nat tk nat :=
  match eff_new env1 100 eexpr with Ok r => fst r | _ => mk_ep (mk_parser [] [] [] [] 0) [] end.
Example C32_effects_example : eff_makes env0 eexpr P_eexpr [] /\ eff_makes env1 eexpr P_eexpr1 [] /\ p_start (ep_tab P_eexpr) <> p_start (ep_tab P_eexpr1).
Proof. split; [apply eexpr_makes|]. split; [split; [apply env1_ok|exists 100; unfold P_eexpr1; vm_compute; reflexivity]|]. vm_compute. discriminate. Qed.
