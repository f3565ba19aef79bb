(** * Properties C20, C27, C30, C31, C32: the construction of the tables *)
From Coq Require Import List Arith Lia Bool Sorted Permutation.
From Verif Require Import Lib Grammar LrModel LrSpec LrSets LrTop LrMono ParseModel Trees ParseSpec ParseInv ParseComplete ParseTop ParseMore ParseHash ParseExamples.
Import ListNotations.

(** ** C20: nullable symbols and FIRST sets *)
Theorem C20_null_first_exact : forall rs : list rule, exists F nl fm,
  (forall fuel, F <= fuel -> calc_null fuel rs = Ok nl /\ calc_first fuel rs nl = Ok fm) /\
  (forall X, In X nl <-> der rs X []) /\
  (forall A t, In t (aget_or eqb (NT A) [] fm) <-> firsts rs [NT A] t) /\
  (forall l t, In t (get_first nl fm l []) <-> firsts rs l t).
Proof.
  intros rs. destruct (calc_null_ok rs) as (F1 & nl & Hnl & E1). destruct (calc_first_ok rs nl Hnl) as (F2 & fm & Hfm & E2).
  exists (max F1 F2), nl, fm. split; [intros fuel Hf; split; [apply E1|apply E2]; lia|]. split; [apply Hnl|]. split.
  - intros A t. rewrite firsts_firstl. rewrite <- (proj1 Hfm A t). unfold fmem, aget_or. destruct (aget eqb (NT A) fm) as [l|].
    all: tauto.
  - intros l t. rewrite (get_first_spec rs nl fm l Hnl Hfm [] t), firsts_firstl. simpl. tauto.
Qed.
Print Assumptions C20_null_first_exact.
(** A ::= B C x;  B ::= (nothing) | y;  C ::= B B: B and C are nullable, FIRST(A) = {x, y} *)
Definition rs_null : list rule := [mk_rule 0 [NT 1; NT 2; TM (TSym 0)]; mk_rule 1 []; mk_rule 1 [TM (TSym 1)]; mk_rule 2 [NT 1; NT 1]].
Example C20_example : exists nl fm, calc_null 10 rs_null = Ok nl /\ calc_first 10 rs_null nl = Ok fm /\ nl = [NT 1; NT 2] /\ aget_or eqb (NT 0) [] fm = [TSym 0; TSym 1].
Proof. do 2 eexists. split; [vm_compute; reflexivity|]. split; [vm_compute; reflexivity|]. split; vm_compute; reflexivity. Qed.

(** ** C27: LR1Parser::new returns, and panics only on undefined symbols *)
(** a symbol without rules that is the start symbol or occurs in a rule *)
Definition undefined_symbol {N T E} (s : syntax N T E) (A : nat) : Prop :=
  (forall r, In r (gram s) -> r_lhs r <> A) /\ (A = sx_start s \/ exists r, In r (gram s) /\ In (NT A) (r_rhs r)).
Theorem C27_new_total : forall N T E (nix : N -> nat) (tix : T -> nat) e (s : syntax N T E),
  lr_env_ok e -> api_syntax nix tix s ->
  exists F, (exists P ws, forall fuel, F <= fuel -> lr1_new e fuel s = Ok (P, ws)) \/
            ((exists A, undefined_symbol s A) /\ forall fuel, F <= fuel -> lr1_new e fuel s = Panic).
Proof.
  intros N T E nix tix e s He Ha. pose proof (api_no_eoi nix tix s Ha) as Heoi.
  destruct (lr_new_ok e (gram s) (sx_start s) He Heoi) as (ss & Ess & Hss & F & r & HF & Hr). exists F. unfold lr1_new. fold (gram s).
  destruct r as [[p w]| |]; simpl in Hr; [left|right|contradiction].
  - eexists _, _. intros fuel Hf. rewrite (HF fuel Hf). reflexivity.
  - split; [|intros fuel Hf; rewrite (HF fuel Hf); reflexivity].
    destruct Hr as (g & k & q & la & r & A & t & _ & Hr & HA & Hno & _). exists A. split.
    + intros r' Hr'. apply Hno. apply in_or_app. auto.
    + apply nth_error_In in Hr. apply in_app_or in Hr as [Hr|[<-|[]]]; [right; exists r; split; auto; eapply nth_error_In; eauto|].
      left. destruct q as [|q]; simpl in HA; [congruence|destruct q; discriminate].
Qed.
Print Assumptions C27_new_total.
Corollary C27_no_panic_when_defined : forall N T E (nix : N -> nat) (tix : T -> nat) e (s : syntax N T E),
  lr_env_ok e -> api_syntax nix tix s ->
  (exists r, In r (gram s) /\ r_lhs r = sx_start s) ->
  (forall r A, In r (gram s) -> In (NT A) (r_rhs r) -> exists r', In r' (gram s) /\ r_lhs r' = A) ->
  exists P ws, makes e s P ws.
Proof.
  intros N T E nix tix e s He Ha Hs Hall. destruct (C27_new_total N T E nix tix e s He Ha) as (F & [(P & ws & H)|[(A & HA & Hocc) _]]).
  - exists P, ws. split; auto. exists F. apply H. auto.
  - exfalso. destruct Hocc as [->|(r & Hr & Hin)]; [destruct Hs as (r & Hr & E0)|destruct (Hall r A Hr Hin) as (r' & Hr' & E0)]; eapply HA; eauto.
Qed.
Print Assumptions C27_no_panic_when_defined.
(** S ::= X a panics, S ::= X with X never followed by anything also: the end of input follows *)
Definition g_undef : stx := mk_syntax [rule_new_raw 0 [NT' 1; TM' 0] r_id] 0.
Example C27_example : lr1_new env0 100 g_undef = Panic /\ undefined_symbol g_undef 1 /\
  (exists r, In r (gram expr) /\ r_lhs r = sx_start expr) /\
  (forall r A, In r (gram expr) -> In (NT A) (r_rhs r) -> exists r', In r' (gram expr) /\ r_lhs r' = A).
Proof.
  split; [vm_compute; reflexivity|]. split; [split; [intros r [<-|[]]; discriminate|right; eexists; split; [left; reflexivity|simpl; auto]]|].
  split; [eexists; split; [left; reflexivity|reflexivity]|].
  intros r A Hr HA. destruct A as [|[|A]].
  - eexists. split; [left; reflexivity|reflexivity].
  - eexists. split; [right; right; left; reflexivity|reflexivity].
  - exfalso. simpl in Hr. intuition (subst; simpl in *; intuition discriminate).
Qed.

(** ** C30: how conflicts are resolved *)
Theorem C30_resolution : forall N T E (nix : N -> nat) (tix : T -> nat) e (s : syntax N T E) P ws,
  api_syntax nix tix s -> makes e s P ws ->
  let rs := p_rules (pr_tab P) in
  let sr := length (gram s) in
  forall g q t, state_of (pr_tab P) g = Some q ->
  exists d, act (pr_tab P) q t = Ok d /\
    (wants rs sr g (TM t) -> exists q', d = Some (Shift q') /\ state_of (pr_tab P) (g ++ [TM t]) = Some q') /\
    (~ wants rs sr g (TM t) -> t = TEoi -> complete rs sr g sr TEoi -> d = Some Accept) /\
    (~ wants rs sr g (TM t) -> ~ (t = TEoi /\ complete rs sr g sr TEoi) ->
       forall k, k <> sr -> complete rs sr g k t -> exists k', d = Some (Reduce k') /\ k' <= k /\ k' <> sr /\ complete rs sr g k' t) /\
    (~ wants rs sr g (TM t) -> ~ (t = TEoi /\ complete rs sr g sr TEoi) -> (forall k, k <> sr -> ~ complete rs sr g k t) -> d = None).
Proof.
  intros N T E nix tix e s P ws Ha Hmk rs sr g q t Hq. destruct (makes_made nix tix e s P ws Ha Hmk) as [ss Hm].
  destruct (can_action _ _ _ (md_can _ _ _ _ Hm) _ _ Hq) as (row & Hrow & Hd). specialize (Hd t). exists (aget eqb t row).
  split; [unfold act; rewrite Hrow; reflexivity|]. unfold rs, sr in *. rewrite (can_rules _ _ _ (md_can _ _ _ _ Hm)).
  set (rr := augment (gram s) (sx_start s) ss) in *. clearbody rr. unfold decides, accepting in Hd.
  destruct (aget eqb t row) as [[q'|k'|]|].
  - destruct Hd as [H1 H2]. split; [eauto|]. split; [tauto|]. split; tauto.
  - destruct Hd as (H1 & H2 & H3 & H4 & H5). split; [tauto|]. split; [tauto|]. split; [intros _ _ k Hk Hc; exists k'; auto|intros _ _ H; exfalso; eapply H; eauto].
  - destruct Hd as (H1 & H2 & H3). split; [tauto|]. split; [auto|]. split; tauto.
  - destruct Hd as (H1 & H2 & H3). split; [tauto|]. split; [tauto|]. split; [intros _ _ k Hk Hc; exfalso; eapply H3; eauto|auto].
Qed.
Print Assumptions C30_resolution.
(** and the parser is always in a state reached by a string *)
Theorem C30_states : forall N T E (nix : N -> nat) (tix : T -> nat) e (s : syntax N T E) P ws w st,
  api_syntax nix tix s -> makes e s P ws -> turns tix P w st ->
  exists g, length g = length (ps_stack st) /\ state_of (pr_tab P) g = Some (ps_state st).
Proof.
  intros N T E nix tix e s P ws w st Ha Hmk Ht. destruct (makes_made nix tix e s P ws Ha Hmk) as [ss Hm].
  destruct (turns_inv tix s P ws ss w Hm st Ht) as (g & ts & pos & Hinv). exists g. split; [|apply (inv_state _ _ _ _ _ _ _ _ _ _ Hinv)].
  pose proof (inv_stk _ _ _ _ _ _ _ _ _ _ Hinv) as H. clear - H. induction H; simpl; auto. rewrite app_length. simpl. lia.
Qed.
Print Assumptions C30_states.
(** E ::= E + E | id: a shift is preferred, so + associates to the right *)
Definition g_plus : stx := mk_syntax [rule_new_raw 0 [NT' 0; TM' kPlus; NT' 0] (fun l => match l with [NonTerminal a; _; NonTerminal b] => GOk (a + 2 * b) | _ => GPanic end); rule_new_raw 0 [TM' kId] r_id] 0.
Definition P_plus : prs := Eval vm_compute in fst (build env0 g_plus).
Definition ws_plus : list warning := Eval vm_compute in snd (build env0 g_plus).
Example C30_example : api_syntax nix0 tkix g_plus /\ makes env0 g_plus P_plus ws_plus /\ length ws_plus = 1 /\
  returns tkix P_plus [(kId, 1); (kPlus, 0); (kId, 1); (kPlus, 0); (kId, 1)] (ROk 7).
Proof. split; [raw|]. split; [mk|]. split; [reflexivity|]. exists 100. vm_compute. reflexivity. Qed.

(** ** C31: the warnings are the conflicts *)
Theorem C31_warnings_exact : forall N T E (nix : N -> nat) (tix : T -> nat) e (s : syntax N T E) P ws,
  api_syntax nix tix s -> makes e s P ws ->
  let rs := p_rules (pr_tab P) in
  let sr := length (gram s) in
  (forall x, In x ws <-> conflict rs sr x) /\
  (exists c, ws = map fst c /\ NoDup c /\ forall x t, In (x, t) c <-> conflict_at rs sr x t) /\
  (ws = [] <-> forall g k t, k <> sr -> complete rs sr g k t -> ~ wants rs sr g (TM t) /\ forall k', k' <> sr -> complete rs sr g k' t -> k' = k).
Proof.
  intros N T E nix tix e s P ws Ha Hmk rs sr. destruct (makes_made nix tix e s P ws Ha Hmk) as [ss Hm].
  unfold rs. rewrite (can_rules _ _ _ (md_can _ _ _ _ Hm)). split; [apply (md_warn _ _ _ _ Hm)|split; [apply (md_each _ _ _ _ Hm)|apply (md_free _ _ _ _ Hm)]].
Qed.
Print Assumptions C31_warnings_exact.
Example C31_example : makes env0 g_plus P_plus ws_plus /\ exists st sh, ws_plus = [WShiftReduce st sh 0].
Proof. split; [mk|]. do 2 eexists. vm_compute. reflexivity. Qed.

(** S ::= A + | B + | A id | B id, A ::= id, B ::= id: the same warning once for each of two lookaheads *)
Definition g_twice : stx := mk_syntax [rule_new_raw 0 [NT' 1; TM' kPlus] r_id; rule_new_raw 0 [NT' 2; TM' kPlus] r_id;
  rule_new_raw 0 [NT' 1; TM' kId] r_id; rule_new_raw 0 [NT' 2; TM' kId] r_id; rule_new_raw 1 [TM' kId] r_id; rule_new_raw 2 [TM' kId] r_id] 0.
Definition P_twice : prs := Eval vm_compute in fst (build env0 g_twice).
Definition ws_twice : list warning := Eval vm_compute in snd (build env0 g_twice).
Example C31_example_twice : api_syntax nix0 tkix g_twice /\ makes env0 g_twice P_twice ws_twice /\
  exists st, ws_twice = [WReduceReduce st 4 5; WReduceReduce st 4 5].
Proof. split; [raw|]. split; [mk|]. eexists. vm_compute. reflexivity. Qed.

(** ** C32: the hash maps' iteration orders do not matter *)
Theorem C32_order_independent : forall N T E (nix : N -> nat) (tix : T -> nat) e1 e2 (s : syntax N T E) P1 P2 ws1 ws2,
  api_syntax nix tix s -> makes e1 s P1 ws1 -> makes e2 s P2 ws2 ->
  Permutation ws1 ws2 /\
  forall fuel w, parse_full tix P1 fuel w = parse_full tix P2 fuel w /\ parse_calls tix P1 fuel w = parse_calls tix P2 fuel w /\
    parse_errors tix P1 fuel w = parse_errors tix P2 fuel w.
Proof.
  intros N T E nix tix e1 e2 s P1 P2 ws1 ws2 Ha Hm1 Hm2. destruct (makes_made nix tix e1 s P1 ws1 Ha Hm1) as [ss1 M1]. destruct (makes_made nix tix e2 s P2 ws2 Ha Hm2) as [ss2 M2].
  assert (E0 : ss2 = ss1) by (pose proof (md_ss _ _ _ _ M1); pose proof (md_ss _ _ _ _ M2); congruence). subst ss2. split.
  - destruct (md_each _ _ _ _ M1) as (c1 & -> & N1 & I1). destruct (md_each _ _ _ _ M2) as (c2 & -> & N2 & I2).
    apply Permutation_map. apply NoDup_Permutation; auto. intros [x t]. rewrite I1, I2. tauto.
  - intros fuel w. pose proof (md_gens _ _ _ _ M1) as G1. pose proof (md_gens _ _ _ _ M2) as G2. pose proof (md_can _ _ _ _ M1) as C1. pose proof (md_can _ _ _ _ M2) as C2.
    destruct P1 as [p1 gs1]. destruct P2 as [p2 gs2]. cbn [pr_gens pr_tab] in *. subst gs1 gs2.
    apply (same_loop tix _ _ p1 p2 _ C1 C2 fuel). apply same_init.
Qed.
Print Assumptions C32_order_independent.
(** the two orders number the states differently *)
Definition P_stmts1 : prs := Eval vm_compute in fst (build env1 stmts).
Example C32_example : makes env0 stmts P_stmts [] /\ makes env1 stmts P_stmts1 [] /\ p_start (pr_tab P_stmts) <> p_start (pr_tab P_stmts1) /\
  parse tkix P_stmts1 100 w_rec = Ok (ROk 406).
Proof. split; [apply stmts_makes|]. split; [split; [apply env1_ok|exists 100; vm_compute; reflexivity]|]. split; [vm_compute; discriminate|vm_compute; reflexivity]. Qed.
