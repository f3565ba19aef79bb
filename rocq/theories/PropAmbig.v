(** * Property C93: ambiguous grammars whose tokens tell the constructs apart lose nothing *)
From Coq Require Import List Arith Lia Bool ZArith.
From Verif Require Import Lib Grammar LrModel LrSpec LrSets LrNew LrTop ParseModel Trees ParseSpec GramFacts ParseInv ParseComplete ParseTop ParseMore ParseExamples PropParse PropLr PropRecover LoopSpec PropLoop MachSpec MachProofs PropMach ChoiceSpec PropChoice ProdCheck StmtSpec PropStmt OpSpec PropOp NestSpec PropNest AmbigSpec AmbigProofs.
Import ListNotations.

Lemma told_loop_free rs start : told_apart rs -> loop_free rs start.
Proof.
  intros TA. apply (C63_certificate rs start [] (fun _ => 0) (fun _ => 0)).
  assert (He : forall l, l <> [] -> forallb (empty_sym []) l = false) by (intros [|[A|t] l] H; [congruence|reflexivity|reflexivity]).
  unfold loop_check. rewrite !andb_true_iff. split; [split|].
  - unfold nl_check. apply forallb_forall. intros r Hr. rewrite (He (r_rhs r)) by (apply (ta_some _ TA); auto). reflexivity.
  - unfold cycle_check. apply forallb_forall. intros r Hr.
    assert (H : forall l l1, l1 ++ l = r_rhs r -> places (fun l1 B l2 => implb (forallb (empty_sym []) l1 && forallb (empty_sym []) l2) (0 <? 0)) l1 l = true); [|apply H; reflexivity].
    induction l as [|X l IH]; intros l1 E; [reflexivity|]. cbn [places]. rewrite IH by (rewrite <- app_assoc; exact E). rewrite andb_true_r. destruct X as [B|t]; [|reflexivity].
    destruct l1 as [|Y l1]; [|rewrite (He (Y :: l1)) by discriminate; reflexivity]. destruct l as [|Y l]; [|rewrite (He (Y :: l)) by discriminate; reflexivity]. destruct (ta_single _ TA r B Hr). auto.
  - unfold left_check. apply forallb_forall. intros r Hr.
    assert (H : forall l l1, places (fun l1 B l2 => implb (forallb (empty_sym []) l1) (if l1 then 0 <=? 0 else 0 <? 0)) l1 l = true); [|apply H].
    induction l as [|X l IH]; intros l1; [reflexivity|]. cbn [places]. rewrite IH. rewrite andb_true_r. destruct X as [B|t]; [|reflexivity]. destruct l1 as [|Y l1]; [reflexivity|]. rewrite (He (Y :: l1)) by discriminate. reflexivity.
Qed.

(** ** No derivable input is refused *)
Theorem C93_nothing_lost : forall N T E (nix : N -> nat) (tix : T -> nat) e (s : syntax N T E) P ws w,
  api_syntax nix tix s -> makes e s P ws -> told_apart (gram s) -> derivable tix s w -> ~ returns tix P w RNotFound.
Proof.
  intros N T E nix tix e s P ws w Ha Hmk TA Hd [fuel Hf]. destruct (C43_reference_semantics N T E nix tix e s P ws Ha Hmk) as (ss & Hss & H). destruct (H w) as (H1 & _ & _).
  assert (Hst : In (sx_start s) (nonterminals (gram s))). { unfold derivable in Hd. inversion Hd; subst. apply nonterminals_spec. eauto. }
  unfold parse in Hf. destruct (parse_full tix P fuel w) as [[o rest]| |] eqn:Ef; cbn in Hf; try discriminate. injection Hf as ->.
  eapply (never_not_found tix (gram s) (sx_start s) ss (gens s) w TA Hst Hss rest Hd). apply H1. eauto.
Qed.
Print Assumptions C93_nothing_lost.
Theorem C93_decides : forall N T E (nix : N -> nat) (tix : T -> nat) e (s : syntax N T E) P ws w,
  api_syntax nix tix s -> makes e s P ws -> told_apart (gram s) -> error_free s -> total_on tix s w ->
  (derivable tix s w /\ exists v, returns tix P w (ROk v)) \/ (~ derivable tix s w /\ returns tix P w RNotFound).
Proof.
  intros N T E nix tix e s P ws w Ha Hmk TA Hef Ht0. destruct Ht0 as [ty Ht] eqn:Et. clear Et. pose proof (total_keeps tix s w ty Ht) as Hk.
  destruct (C63_conflicts_terminate _ _ _ nix tix e s P ws w Ha Hmk (told_loop_free _ _ TA) (or_introl Hef)) as [[o Ho]|Hpa].
  - destruct o as [v| |x].
    + left. split; [eapply C21_sound; eauto|eauto].
    + right. split; auto. intros Hd. exact (C93_nothing_lost _ _ _ nix tix e s P ws w Ha Hmk TA Hd Ho).
    + exfalso. destruct Ho as [fuel Hf]. pose proof (C25_first_error_wins _ _ _ nix tix e s P ws w fuel Ha Hmk) as H. cbv zeta in H. rewrite Hf in H.
      destruct H as (L & k & args & H1 & _ & H2). destruct (proj1 (C45_typed _ _ _ nix tix e s P ws w ty Ha Hmk Hk fuel) k args) as (r & Hr & Hg & Hty); [rewrite H1; apply in_or_app; simpl; auto|].
      destruct (Ht r args (nth_error_In _ _ Hr) Hg Hty) as (v & Hv & _). unfold call, gens in H2. rewrite nth_error_map, Hr in H2. simpl in H2. congruence.
  - exfalso. eapply (C28_no_panic_safe_reducers_partial _ _ _ nix tix e s P ws w ty Ha Hmk (or_intror Hef) Hk); auto.
    intros r args Hr Hg Hty. destruct (Ht r args Hr Hg Hty) as (v & -> & _). discriminate.
Qed.
Print Assumptions C93_decides.
(** the value is that of the preferred tree of C70: operators group to the right, an optional tail goes to the nearest place *)
Theorem C93_value : forall N T E (nix : N -> nat) (tix : T -> nat) e (s : syntax N T E) P ws w,
  api_syntax nix tix s -> makes e s P ws -> told_apart (gram s) -> error_free s -> total_on tix s w -> derivable tix s w ->
  exists v t, returns tix P w (ROk v) /\ proper_tree tix s w t /\ ev (gens s) w t = GOk (NonTerminal v) /\
    (forall t', proper_tree tix s w t' -> t' = t \/ preferred (moves t) (moves t')).
Proof.
  intros N T E nix tix e s P ws w Ha Hmk TA Hef Ht Hd. destruct (C93_decides _ _ _ nix tix e s P ws w Ha Hmk TA Hef Ht) as [[_ [v [fuel Hv]]]|[F _]]; [|contradiction].
  destruct (C70_preferred_tree _ _ _ nix tix e s P ws w fuel v Ha Hmk Hv (or_introl Hef)) as (t & H1 & H2 & H3). exists v, t. split; [exists fuel; auto|auto].
Qed.
Print Assumptions C93_value.

(** ** The conditions can be checked *)
Definition syms_dec (l l' : list sym) : {l = l'} + {l <> l'}.
Proof. repeat decide equality. Defined.
Definition same_syms (l l' : list sym) : bool := if syms_dec l l' then true else false.
Fixpoint splits (l0 l : list sym) : list (list sym) := match l with [] => [l0] | X :: l' => l0 :: splits (l0 ++ [X]) l' end.
Definition all_begins (rs : list rule) : list (nat * list sym) := flat_map (fun r => map (fun l => (r_lhs r, l)) (splits [] (r_rhs r))) rs.
Definition ends_nt (l : list sym) : bool := match rev l with NT _ :: _ => true | _ => false end.
Definition has_begin (rs : list rule) (A : nat) (l : list sym) : bool := existsb (fun p => Nat.eqb (fst p) A && same_syms (snd p) l) (all_begins rs).
Definition has_rule (rs : list rule) (A : nat) (l : list sym) : bool := existsb (fun r => Nat.eqb (r_lhs r) A && same_syms (r_rhs r) l) rs.
(** the places of tokens *)
Definition all_occs (rs : list rule) : list (nat * list sym * term) :=
  flat_map (fun p => match rev (snd p) with TM t :: l => [(fst p, rev l, t)] | _ => [] end) (all_begins rs).
Definition term_dec (t t' : term) : {t = t'} + {t <> t'}.
Proof. repeat decide equality. Defined.
Fixpoint no_adj (l : list sym) : bool := match l with NT _ :: ((NT _ :: _) as l') => false | _ :: l' => no_adj l' | [] => true end.
(** the conditions without the [k]-th *)
Record told_but (k : nat) (rs : list rule) : Prop := {
  tb_some : k <> 0 -> forall r, In r rs -> r_rhs r <> [];
  tb_single : k <> 1 -> forall r A, In r rs -> r_rhs r <> [NT A];
  tb_next : k <> 2 -> forall r l A B l', In r rs -> r_rhs r <> l ++ NT A :: NT B :: l';
  tb_left : k <> 3 -> forall r A l, In r rs -> r_rhs r = NT A :: l -> A = r_lhs r;
  tb_operand : k <> 4 -> forall A l A' l' t, occurs_behind rs A l t -> occurs_behind rs A' l' t -> ~ after_operand l -> ~ after_operand l' -> A = A' /\ l = l';
  tb_operator : k <> 5 -> forall A l B A' l' B' t, occurs_behind rs A (l ++ [NT B]) t -> occurs_behind rs A' (l' ++ [NT B']) t ->
      l = [] \/ is_rule rs A (l ++ [NT B]) -> A = A' /\ l = l' /\ B = B';
  tb_optional : k <> 6 -> forall A l t, is_rule rs A l -> ~ after_operand l -> (exists A' l', occurs_behind rs A' l' t /\ after_operand l') ->
      ~ occurs_behind rs A l t /\ forall B, begins rs A (l ++ [NT B]) -> ~ occurs_behind rs B [] t }.
Definition every_pair (rs : list rule) (f : nat -> list sym -> nat -> list sym -> bool) : bool :=
  forallb (fun o => forallb (fun o' => let '(A, l, t) := o in let '(A', l', t') := o' in implb (if term_dec t t' then true else false) (f A l A' l')) (all_occs rs)) (all_occs rs).
Definition check_but (k : nat) (rs : list rule) : bool :=
  ((k =? 0) || forallb (fun r => match r_rhs r with [] => false | _ => true end) rs) &&
  ((k =? 1) || forallb (fun r => match r_rhs r with [NT _] => false | _ => true end) rs) &&
  ((k =? 2) || forallb (fun r => no_adj (r_rhs r)) rs) &&
  ((k =? 3) || forallb (fun r => match r_rhs r with NT A :: _ => Nat.eqb A (r_lhs r) | _ => true end) rs) &&
  ((k =? 4) || every_pair rs (fun A l A' l' => ends_nt l || ends_nt l' || Nat.eqb A A' && same_syms l l')) &&
  ((k =? 5) || every_pair rs (fun A l A' l' => negb (ends_nt l && ends_nt l' && (match l with [_] => true | _ => false end || has_rule rs A l)) || Nat.eqb A A' && same_syms l l')) &&
  ((k =? 6) || forallb (fun r => ends_nt (r_rhs r) || forallb (fun o => let '(A', l', t) := o in
    implb (ends_nt l') (negb (has_begin rs (r_lhs r) (r_rhs r ++ [TM t])) &&
      forallb (fun p => match rev (snd p) with NT B :: l => implb (Nat.eqb (fst p) (r_lhs r) && same_syms (rev l) (r_rhs r)) (negb (has_begin rs B [TM t])) | _ => true end) (all_begins rs)))
    (all_occs rs)) rs).
Definition apart_check (rs : list rule) : bool := check_but 7 rs.
Lemma same_syms_spec l l' : same_syms l l' = true <-> l = l'.
Proof. unfold same_syms. destruct (syms_dec l l'); split; congruence. Qed.
Lemma splits_spec l : forall l0 x, In x (splits l0 l) <-> exists a b, l = a ++ b /\ x = l0 ++ a.
Proof.
  induction l as [|X l IH]; intros l0 x; cbn.
  - split; [intros [<-|[]]; exists [], []; rewrite (app_nil_r l0); auto|]. intros (a & b & E & ->). destruct a; [|discriminate]. rewrite app_nil_r. auto.
  - rewrite IH. split.
    + intros [<-|(a & b & -> & ->)]; [exists [], (X :: l); rewrite (app_nil_r l0); auto|exists (X :: a), b; rewrite <- app_assoc; auto].
    + intros (a & b & E & ->). destruct a as [|Y a]; [left; rewrite app_nil_r; auto|]. cbn in E. injection E as <- ->. right. exists a, b. rewrite <- app_assoc. auto.
Qed.
Lemma all_begins_spec rs A l : In (A, l) (all_begins rs) <-> begins rs A l.
Proof.
  unfold all_begins. rewrite in_flat_map. split.
  - intros (r & Hr & H). apply in_map_iff in H as (x & E & Hx). injection E as <- <-. apply splits_spec in Hx as (a & b & E & ->). exists r, b. auto.
  - intros (r & b & Hr & El & E). exists r. split; auto. apply in_map_iff. exists l. rewrite El. split; auto. apply splits_spec. exists l, b. auto.
Qed.
Lemma all_occs_spec rs A l t : occurs_behind rs A l t -> In (A, l, t) (all_occs rs).
Proof.
  intros H. apply all_begins_spec in H. apply in_flat_map. exists (A, l ++ [TM t]). split; auto. cbn. rewrite rev_app_distr. cbn. rewrite rev_involutive. auto.
Qed.
Lemma has_begin_spec rs A l : has_begin rs A l = true <-> begins rs A l.
Proof.
  rewrite <- all_begins_spec. unfold has_begin. rewrite existsb_exists. split.
  - intros ([A' l'] & H & E). cbn in E. apply andb_true_iff in E as [E1 E2]. apply Nat.eqb_eq in E1. apply same_syms_spec in E2. congruence.
  - intros H. exists (A, l). split; auto. cbn. rewrite Nat.eqb_refl. apply same_syms_spec. auto.
Qed.
Lemma has_rule_spec rs A l : is_rule rs A l -> has_rule rs A l = true.
Proof. intros H. apply existsb_exists. exists (mk_rule A l). split; auto. cbn. rewrite Nat.eqb_refl. apply same_syms_spec. auto. Qed.
Lemma ends_nt_spec l : ends_nt l = true <-> after_operand l.
Proof.
  unfold ends_nt, after_operand. split.
  - intros H. destruct (rev l) as [|[A|t] l0] eqn:E; try discriminate. exists (rev l0), A. rewrite <- (rev_involutive l), E. reflexivity.
  - intros (l' & A & ->). rewrite rev_app_distr. reflexivity.
Qed.
Lemma no_adj_spec l : no_adj l = true -> forall a A B b, l <> a ++ NT A :: NT B :: b.
Proof.
  induction l as [|X l IH]; intros H a A B b E; [destruct a; discriminate|]. destruct a as [|Y a].
  - cbn in E. rewrite E in H. cbn in H. discriminate.
  - cbn [app] in E. injection E as <- E. assert (H' : no_adj l = true) by (cbn in H; destruct X as [C|t]; auto; destruct l as [|[D|t'] l]; auto; discriminate). exact (IH H' a A B b E).
Qed.
Lemma every_pair_spec rs f : every_pair rs f = true -> forall A l A' l' t, occurs_behind rs A l t -> occurs_behind rs A' l' t -> f A l A' l' = true.
Proof.
  intros H A l A' l' t Ho Ho'. unfold every_pair in H. rewrite forallb_forall in H. specialize (H _ (all_occs_spec _ _ _ _ Ho)). rewrite forallb_forall in H. specialize (H _ (all_occs_spec _ _ _ _ Ho')). cbv beta iota in H.
  destruct (term_dec t t) as [_|F]; [|congruence]. exact H.
Qed.
Lemma check_but_sound k rs : check_but k rs = true -> told_but k rs.
Proof.
  intros H. unfold check_but in H. rewrite !andb_true_iff, !orb_true_iff in H. destruct H as [[[[[[H0 H1] H2] H3] H4] H5] H6].
  assert (D : forall i (P : Prop), (k =? i) = true \/ P -> k <> i -> P) by (intros i P [E|E] Hn; [apply Nat.eqb_eq in E; contradiction|auto]).
  split; intros Hk.
  - apply (D _ _ H0) in Hk. rewrite forallb_forall in Hk. intros r Hr E. specialize (Hk r Hr). rewrite E in Hk. discriminate.
  - apply (D _ _ H1) in Hk. rewrite forallb_forall in Hk. intros r A Hr E. specialize (Hk r Hr). rewrite E in Hk. discriminate.
  - apply (D _ _ H2) in Hk. rewrite forallb_forall in Hk. intros r l A B l' Hr. apply no_adj_spec; auto.
  - apply (D _ _ H3) in Hk. rewrite forallb_forall in Hk. intros r A l Hr E. specialize (Hk r Hr). rewrite E in Hk. apply Nat.eqb_eq in Hk. auto.
  - apply (D _ _ H4) in Hk. intros A l A' l' t Ho Ho' N N'. pose proof (every_pair_spec _ _ Hk _ _ _ _ _ Ho Ho') as H. cbv beta in H. rewrite <- ends_nt_spec in N, N'.
    destruct (ends_nt l); [destruct N; auto|]. destruct (ends_nt l'); [destruct N'; auto|]. cbn [orb] in H. apply andb_true_iff in H as [E1 E2]. apply Nat.eqb_eq in E1. apply same_syms_spec in E2. auto.
  - apply (D _ _ H5) in Hk. intros A l B A' l' B' t Ho Ho' Hc. pose proof (every_pair_spec _ _ Hk _ _ _ _ _ Ho Ho') as H. cbv beta in H.
    assert (Ea : forall x C, ends_nt (x ++ [NT C]) = true) by (intros x C; apply ends_nt_spec; exists x, C; auto). rewrite !Ea in H. apply orb_true_iff in H as [H|H].
    + exfalso. cbn [andb] in H. apply negb_true_iff, orb_false_iff in H as [H H']. destruct Hc as [->|Hc]; [discriminate|]. rewrite (has_rule_spec _ _ _ Hc) in H'. discriminate.
    + apply andb_true_iff in H as [E1 E2]. apply Nat.eqb_eq in E1. apply same_syms_spec in E2. apply app_inj_tail in E2 as [E2 E3]. injection E3 as E3. auto.
  - apply (D _ _ H6) in Hk. rewrite forallb_forall in Hk. intros A l t Hr N (A' & l' & Ho & Ha). specialize (Hk _ Hr). cbn [r_lhs r_rhs] in Hk. apply orb_true_iff in Hk as [Hk|Hk]; [apply ends_nt_spec in Hk; contradiction|].
    rewrite forallb_forall in Hk. specialize (Hk _ (all_occs_spec _ _ _ _ Ho)). cbv beta iota in Hk. rewrite (proj2 (ends_nt_spec l') Ha) in Hk. cbn [implb] in Hk. apply andb_true_iff in Hk as [Hk H]. split.
    + intros F. apply has_begin_spec in F. rewrite F in Hk. discriminate.
    + intros B Hb F. rewrite forallb_forall in H. apply all_begins_spec in Hb. specialize (H _ Hb). cbn [fst snd] in H. rewrite rev_app_distr in H. cbn [rev app] in H. rewrite rev_involutive, Nat.eqb_refl in H.
      rewrite (proj2 (same_syms_spec l l) eq_refl) in H. cbn [andb implb] in H. apply has_begin_spec in F. cbn [app] in F. rewrite F in H. discriminate.
Qed.
Theorem C93_certificate : forall rs, apart_check rs = true -> told_apart rs.
Proof.
  intros rs H. destruct (check_but_sound 7 rs H) as [H0 H1 H2 H3 H4 H5 H6]. split; [apply H0|apply H1|apply H2|apply H3|apply H4|apply H5|apply H6]; discriminate.
Qed.
Print Assumptions C93_certificate.

(** ** Example: E ::= E + E | E * E | E - E | - E | ( E ) | E ( E ) | E ? E : E | if E then E | if E then E else E | n
    with + 1, * 2, - 3, ( 4, ) 5, ? 6, : 7, if 8, then 9, else 10 and numbers 0; a call adds ten times the argument, an if without
    else has the value 0 when the condition is 0.  All operators group to the right and have the same strength. *)
Section Calc.
  Open Scope Z_scope.
  Definition mx_bin (f : Z -> Z -> Z) : reducer Z tok nat := fun args => match args with [NonTerminal a; Terminal _; NonTerminal b] => GOk (f a b) | _ => GPanic end.
  Definition mx_neg : reducer Z tok nat := fun args => match args with [Terminal _; NonTerminal a] => GOk (- a) | _ => GPanic end.
  Definition mx_par : reducer Z tok nat := fun args => match args with [Terminal _; NonTerminal a; Terminal _] => GOk a | _ => GPanic end.
  Definition mx_app : reducer Z tok nat := fun args => match args with [NonTerminal a; Terminal _; NonTerminal b; Terminal _] => GOk (a + 10 * b) | _ => GPanic end.
  Definition mx_sel : reducer Z tok nat := fun args => match args with [NonTerminal c; Terminal _; NonTerminal a; Terminal _; NonTerminal b] => GOk (if Z.eqb c 0 then b else a) | _ => GPanic end.
  Definition mx_if : reducer Z tok nat := fun args => match args with [Terminal _; NonTerminal c; Terminal _; NonTerminal a] => GOk (if Z.eqb c 0 then 0 else a) | _ => GPanic end.
  Definition mx_ife : reducer Z tok nat := fun args => match args with [Terminal _; NonTerminal c; Terminal _; NonTerminal a; Terminal _; NonTerminal b] => GOk (if Z.eqb c 0 then b else a) | _ => GPanic end.
  Definition mx_num : reducer Z tok nat := fun args => match args with [Terminal t] => GOk (snd t) | _ => GPanic end.
  Definition mixfix : syntax Z tok nat := mk_syntax
    [rule_new_raw 0%nat [NonTerminal 0%nat; Terminal 1%nat; NonTerminal 0%nat] (mx_bin Z.add); rule_new_raw 0%nat [NonTerminal 0%nat; Terminal 2%nat; NonTerminal 0%nat] (mx_bin Z.mul);
     rule_new_raw 0%nat [NonTerminal 0%nat; Terminal 3%nat; NonTerminal 0%nat] (mx_bin Z.sub); rule_new_raw 0%nat [Terminal 3%nat; NonTerminal 0%nat] mx_neg;
     rule_new_raw 0%nat [Terminal 4%nat; NonTerminal 0%nat; Terminal 5%nat] mx_par; rule_new_raw 0%nat [NonTerminal 0%nat; Terminal 4%nat; NonTerminal 0%nat; Terminal 5%nat] mx_app;
     rule_new_raw 0%nat [NonTerminal 0%nat; Terminal 6%nat; NonTerminal 0%nat; Terminal 7%nat; NonTerminal 0%nat] mx_sel;
     rule_new_raw 0%nat [Terminal 8%nat; NonTerminal 0%nat; Terminal 9%nat; NonTerminal 0%nat] mx_if;
     rule_new_raw 0%nat [Terminal 8%nat; NonTerminal 0%nat; Terminal 9%nat; NonTerminal 0%nat; Terminal 10%nat; NonTerminal 0%nat] mx_ife;
     rule_new_raw 0%nat [Terminal 0%nat] mx_num] 0%nat.
End Calc.
Definition P_mixfix : parser Z tok nat := Eval vm_compute in made_parser (lr1_new env0 3000 mixfix).
Lemma mixfix_total w : total_on fst mixfix w.
Proof.
  exists (fun _ _ => True). intros r args Hr (Hf & _) _. simpl in Hr. repeat destruct Hr as [<-|Hr]; try destruct Hr; simpl in *.
  all: repeat match goal with H : Forall2 _ (_ :: _) _ |- _ => inversion H; clear H; subst | H : Forall2 _ [] _ |- _ => inversion H; clear H; subst
    | H : fits _ _ ?a |- _ => destruct a; simpl in H; try contradiction; clear H end.
  all: simpl; eexists; split; [reflexivity|exact I].
Qed.
(** - 2 * 3 + if 1 then if 0 then 5 else 4 ( 2 ) *)
Definition w_mixfix : list tok := [sign 3; num 2; sign 2; num 3; sign 1; sign 8; num 1; sign 9; sign 8; num 0; sign 9; num 5; sign 10; num 4; sign 4; num 2; sign 5].
Example C93_example : exists ws, api_syntax no_z fst mixfix /\ makes env0 mixfix P_mixfix ws /\ ws <> [] /\ told_apart (gram mixfix) /\ error_free mixfix /\ total_on fst mixfix w_mixfix /\
  derivable fst mixfix w_mixfix /\ returns fst P_mixfix w_mixfix (ROk (- (2 * (3 + (4 + 10 * 2))))%Z).
Proof.
  assert (R : returns fst P_mixfix w_mixfix (ROk (- (2 * (3 + (4 + 10 * 2))))%Z)) by (exists 1000; vm_compute; reflexivity).
  assert (A : api_syntax no_z fst mixfix) by raw_rules. assert (He : error_free mixfix) by (intros r Hr; simpl in Hr; repeat destruct Hr as [<-|Hr]; try destruct Hr; simpl; intuition discriminate).
  eexists. split; [exact A|]. split; [mk1|]. split; [discriminate|]. split; [apply C93_certificate; vm_compute; reflexivity|]. split; [exact He|]. split; [apply mixfix_total|]. split; [|exact R].
  refine (proj1 (C21_sound _ _ _ no_z fst env0 mixfix P_mixfix _ w_mixfix _ A _ He R)). mk1.
Qed.
(** statements and expressions: S ::= while E do S | if E then S | if E then S else S | begin S end | begin S ; S end | x := E;
    E ::= E + E | E ( E ) | - E | n, with while 1, do 2, if 3, then 4, else 5, begin 6, end 7, ; 8, x 9, := 10, + 11, ( 12, ) 13, - 14 and n 15 *)
Definition stm_rules : list (crule nat nat nat) :=
  [nrule 0 [Terminal 1; NonTerminal 1; Terminal 2; NonTerminal 0]; nrule 0 [Terminal 3; NonTerminal 1; Terminal 4; NonTerminal 0];
   nrule 0 [Terminal 3; NonTerminal 1; Terminal 4; NonTerminal 0; Terminal 5; NonTerminal 0]; nrule 0 [Terminal 6; NonTerminal 0; Terminal 7]; nrule 0 [Terminal 6; NonTerminal 0; Terminal 8; NonTerminal 0; Terminal 7];
   nrule 0 [Terminal 9; Terminal 10; NonTerminal 1];
   nrule 1 [NonTerminal 1; Terminal 11; NonTerminal 1]; nrule 1 [NonTerminal 1; Terminal 12; NonTerminal 1; Terminal 13]; nrule 1 [Terminal 14; NonTerminal 1]; nrule 1 [Terminal 15]].
Example C93_statements_example : exists P ws, api_syntax self self (nst stm_rules 0) /\ makes env0 (nst stm_rules 0) P ws /\ ws <> [] /\ told_apart (gram (nst stm_rules 0)) /\
  returns self P [1; 14; 15; 11; 15; 2; 3; 15; 4; 6; 3; 15; 4; 9; 10; 15; 12; 15; 13; 5; 9; 10; 15; 8; 9; 10; 15; 7; 5; 9; 10; 15] (ROk 0).
Proof.
  eexists _, _. split; [raw_rules|]. split; [mk1|]. split; [discriminate|]. split; [apply C93_certificate; vm_compute; reflexivity|]. exists 1000. vm_compute. reflexivity.
Qed.

(** ** The conditions are needed *)
Inductive dtree := DT (t : nat) | DN (A : nat) (l : list dtree).
Definition dsym (d : dtree) : sym := match d with DT t => TM (TSym t) | DN A _ => NT A end.
Fixpoint dword (d : dtree) : list term := match d with DT t => [TSym t] | DN _ l => flat_map dword l end.
Fixpoint dok (rs : list rule) (d : dtree) : bool := match d with DT _ => true | DN A l => has_rule rs A (map dsym l) && forallb (dok rs) l end.
Fixpoint dok_der rs (d : dtree) : dok rs d = true -> der rs (dsym d) (dword d).
Proof.
  destruct d as [t|A l]; intros H; [constructor|]. cbn [dok] in H. apply andb_true_iff in H as [H H']. apply existsb_exists in H as (r & Hr & H). apply andb_true_iff in H as [H1 H2]. apply Nat.eqb_eq in H1. apply same_syms_spec in H2.
  cbn [dsym dword]. rewrite <- H1. constructor; auto. rewrite H2. clear - H' dok_der. revert H'. induction l as [|d l IH]; intros H; [constructor|]. cbn [forallb] in H. apply andb_true_iff in H as [Hd Hl]. cbn. constructor; [apply dok_der; auto|auto].
Qed.
(** a grammar that meets the other conditions and a text of its language that the parser does not accept *)
Definition lost_without (k : nat) : Prop := exists (s : syntax nat nat nat) (P : parser nat nat nat) ws w,
  api_syntax self self s /\ makes env0 s P ws /\ told_but k (gram s) /\ error_free s /\ derivable self s w /\ forall v, ~ returns self P w (ROk v).
Ltac lost_tac w d := eexists _, _, w; split; [raw_rules|]; split; [mk1|]; split; [apply check_but_sound; vm_compute; reflexivity|];
  split; [intros r Hr; simpl in Hr; repeat destruct Hr as [<-|Hr]; try destruct Hr; simpl; intuition discriminate|];
  split; [match goal with |- derivable _ ?s _ => pose proof (dok_der (gram s) d ltac:(vm_compute; reflexivity)) as H; exact H end|].
Ltac not_found := let v := fresh in let F := fresh in let H' := fresh in intros v F;
  match type of F with returns ?t ?P ?w (ROk _) => assert (H' : returns t P w RNotFound) by (exists 1000; vm_compute; reflexivity); pose proof (returns_det t P _ _ _ F H'); discriminate end.
(** an empty right-hand side: S ::= x A y p | x B y q, A ::= (nothing), B ::= (nothing), for "x y q" *)
Theorem C93_some_needed : lost_without 0.
Proof.
  exists (nst [nrule 0 [Terminal 1; NonTerminal 1; Terminal 2; Terminal 3]; nrule 0 [Terminal 1; NonTerminal 2; Terminal 2; Terminal 4]; nrule 1 []; nrule 2 []] 0).
  lost_tac [1; 2; 4] (DN 0 [DT 1; DN 2 []; DT 2; DT 4]). not_found.
Qed.
Print Assumptions C93_some_needed.
(** neighbouring nonterminals: S ::= x C E, C ::= a | a E, E ::= e, for "x a e" *)
Theorem C93_next_needed : lost_without 2.
Proof.
  exists (nst [nrule 0 [Terminal 1; NonTerminal 1; NonTerminal 2]; nrule 1 [Terminal 2]; nrule 1 [Terminal 2; NonTerminal 2]; nrule 2 [Terminal 3]] 0).
  lost_tac [1; 2; 3] (DN 0 [DT 1; DN 1 [DT 2]; DN 2 [DT 3]]). not_found.
Qed.
Print Assumptions C93_next_needed.
(** a rule that begins with another nonterminal: S ::= B z, B ::= C t, C ::= x C | c | B y, for "x c t z" *)
Theorem C93_left_needed : lost_without 3.
Proof.
  exists (nst [nrule 0 [NonTerminal 1; Terminal 1]; nrule 1 [NonTerminal 2; Terminal 2]; nrule 2 [Terminal 3; NonTerminal 2]; nrule 2 [Terminal 4]; nrule 2 [NonTerminal 1; Terminal 5]] 0).
  lost_tac [3; 4; 2; 1] (DN 0 [DN 1 [DN 2 [DT 3; DN 2 [DT 4]]; DT 2]; DT 1]). not_found.
Qed.
Print Assumptions C93_left_needed.
(** two constructs begin with the same token: S ::= x C p y | x D p z, C ::= a, D ::= a, for "x a p z" *)
Theorem C93_operand_needed : lost_without 4.
Proof.
  exists (nst [nrule 0 [Terminal 1; NonTerminal 1; Terminal 2; Terminal 3]; nrule 0 [Terminal 1; NonTerminal 2; Terminal 2; Terminal 4]; nrule 1 [Terminal 5]; nrule 2 [Terminal 5]] 0).
  lost_tac [1; 5; 2; 4] (DN 0 [DT 1; DN 2 [DT 5]; DT 2; DT 4]). not_found.
Qed.
Print Assumptions C93_operand_needed.
(** an operator is also a separator: E ::= E , E | ( E , b ) | a, for "( a , a , b )" *)
Theorem C93_operator_needed : lost_without 5.
Proof.
  exists (nst [nrule 0 [NonTerminal 0; Terminal 1; NonTerminal 0]; nrule 0 [Terminal 2; NonTerminal 0; Terminal 1; Terminal 3; Terminal 4]; nrule 0 [Terminal 5]] 0).
  lost_tac [2; 5; 1; 5; 1; 3; 4] (DN 0 [DT 2; DN 0 [DN 0 [DT 5]; DT 1; DN 0 [DT 5]]; DT 1; DT 3; DT 4]). not_found.
Qed.
Print Assumptions C93_operator_needed.
(** an optional operand can begin with an operator: E ::= x | x E | E - y | - z, for "x - y" *)
Theorem C93_optional_needed : lost_without 6.
Proof.
  exists (nst [nrule 0 [Terminal 1]; nrule 0 [Terminal 1; NonTerminal 0]; nrule 0 [NonTerminal 0; Terminal 2; Terminal 3]; nrule 0 [Terminal 2; Terminal 4]] 0).
  lost_tac [1; 2; 3] (DN 0 [DN 0 [DT 1]; DT 2; DT 3]). not_found.
Qed.
Print Assumptions C93_optional_needed.
(** a rule that is a single nonterminal: E ::= E | + E | a, for "+ a" [parse] does not end *)
Theorem C93_single_needed : lost_without 1.
Proof.
  exists (nst [nrule 0 [NonTerminal 0]; nrule 0 [Terminal 1; NonTerminal 0]; nrule 0 [Terminal 2]] 0).
  lost_tac [1; 2] (DN 0 [DT 1; DN 0 [DT 2]]). 
  match goal with |- forall v, ~ returns _ ?P ?w _ => assert (D : diverges self P w) end.
  { apply diverges_full. intros fuel. match goal with |- parse_full self ?P _ ?w = _ => pose (P0 := P) end.
    pose (x0 := mk_ps [] 4 [1; 2] [(TEoi, 0)] [(2, ENon 0 1); (0, ETok 1 0)] [] : pstate nat nat).
    assert (L : forall f, loop (parse_step self P0) f x0 = OutOfFuel) by (induction f as [|f IH]; [reflexivity|]; change (loop (parse_step self P0) f x0 = OutOfFuel); exact IH).
    destruct fuel as [|[|[|fuel]]]; try reflexivity. exact (L fuel). }
  intros v [fuel H]. rewrite D in H. discriminate.
Qed.
Print Assumptions C93_single_needed.
