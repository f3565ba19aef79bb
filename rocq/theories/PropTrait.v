(** * The comparison and hashing traits keep their contracts.  C52, C53. *)
From Coq Require Import List Arith NArith Bool Lia.
From Verif Require Import Lib Grammar NfaModel ParseModel TraitModel ParseExamples.
Import ListNotations.

(** ** The contracts of [PartialEq]+[Eq], [PartialOrd]+[Ord], [Hash] in the documentation of the standard library *)
Record eq_ok {A} (eq : A -> A -> bool) : Prop := {
  eq_refl_ok : forall x, eq x x = true;
  eq_sym_ok : forall x y, eq x y = true -> eq y x = true;
  eq_trans_ok : forall x y z, eq x y = true -> eq y z = true -> eq x z = true }.
Record ord_ok {A} (eq : A -> A -> bool) (pcmp : A -> A -> option comparison) (cmp : A -> A -> comparison) : Prop := {
  ord_partial : forall x y, pcmp x y = Some (cmp x y);
  ord_eq : forall x y, cmp x y = Eq <-> eq x y = true;
  ord_dual : forall x y, cmp y x = CompOpp (cmp x y);
  ord_trans : forall c x y z, cmp x y = c -> cmp y z = c -> cmp x z = c }.
Definition hash_ok {A} (eq : A -> A -> bool) (hash : A -> writes) : Prop := forall x y, eq x y = true -> hash x = hash y.

(** ** Orders that come from the orders of the model *)
Lemma ord_of {A B} `{Ord B} (f : A -> B) (cmp0 : A -> A -> comparison) : (forall x y, cmp0 x y = cmp (f x) (f y)) ->
  (forall x y, cmp0 y x = CompOpp (cmp0 x y)) /\ (forall c x y z, cmp0 x y = c -> cmp0 y z = c -> cmp0 x z = c).
Proof.
  intros Hc. split; [intros x y; rewrite !Hc; apply cmp_anti|]. intros c x y z. rewrite !Hc. intros H1 H2. destruct c.
  - apply cmp_eq in H1, H2. apply cmp_eq. congruence.
  - eapply cmp_trans; eauto.
  - apply cmp_gt_lt in H1, H2. apply cmp_gt_lt. eapply cmp_trans; eauto.
Qed.

Lemma nat_cmp x y : (x ?= y) = cmp x y. Proof. reflexivity. Qed.
Lemma term_cmp_ok x y : term_cmp x y = cmp x y.
Proof. destruct x as [x| |], y as [y| |]; try reflexivity. Qed.
Lemma sym_cmp_ok x y : sym_cmp x y = cmp x y.
Proof.
  destruct x as [a|a], y as [b|b]; try reflexivity. simpl. rewrite term_cmp_ok. reflexivity.
Qed.
Lemma term_eq_ok x y : term_eq x y = true <-> x = y.
Proof. destruct x, y; simpl; try (split; congruence). rewrite Nat.eqb_eq. split; congruence. Qed.
Lemma sym_eq_ok x y : sym_eq x y = true <-> x = y.
Proof. destruct x, y; simpl; try (split; congruence); [rewrite Nat.eqb_eq|rewrite term_eq_ok]; split; congruence. Qed.
Lemma vec_eq_ok {A} (eq : A -> A -> bool) : (forall x y, eq x y = true <-> x = y) -> forall l m, vec_eq eq l m = true <-> l = m.
Proof.
  intros H. induction l as [|a l IH]; intros [|b m]; simpl; try (split; congruence). rewrite andb_true_iff, H, IH. split; [intros []; congruence|intros E; injection E; auto].
Qed.

#[local] Instance Ord_vec {A} `{Ord A} : Ord (list A).
Proof.
  refine {| cmp := vec_cmp cmp |}.
  - induction x as [|a l IH]; intros [|b m]; simpl; try (split; congruence). destruct (cmp a b) eqn:E.
    + apply cmp_eq in E. subst b. rewrite IH. split; congruence.
    + split; [discriminate|]. intros E'. injection E' as -> ->. rewrite cmp_refl in E. discriminate.
    + split; [discriminate|]. intros E'. injection E' as -> ->. rewrite cmp_refl in E. discriminate.
  - induction x as [|a l IH]; intros [|b m]; simpl; auto. rewrite (cmp_anti a b), IH. destruct (cmp a b); reflexivity.
  - induction x as [|a l IH]; intros [|b m] [|c n]; simpl; try congruence. intros H1 H2. destruct (cmp a b) eqn:E1; try discriminate.
    + apply cmp_eq in E1. subst b. destruct (cmp a c); auto. eauto.
    + destruct (cmp b c) eqn:E2; try discriminate.
      * apply cmp_eq in E2. subst c. rewrite E1. reflexivity.
      * rewrite (cmp_trans _ _ _ E1 E2). reflexivity.
Defined.
Lemma vec_cmp_ext {A} (f g : A -> A -> comparison) : (forall x y, f x y = g x y) -> forall l m, vec_cmp f l m = vec_cmp g l m.
Proof. intros H. induction l as [|a l IH]; intros [|b m]; simpl; auto. rewrite H, IH. reflexivity. Qed.

Section Rules.
  Context {N T E : Type}.
  Notation R := (crule N T E).
  Lemma rule_eq_iff (a b : R) : rule_eq a b = true <-> cr_rule a = cr_rule b.
  Proof.
    unfold rule_eq. rewrite andb_true_iff, Nat.eqb_eq, (vec_eq_ok sym_eq sym_eq_ok). destruct (cr_rule a), (cr_rule b); simpl.
    split; [intros []; congruence|intros E0; injection E0; auto].
  Qed.
  Definition rule_key (a : R) : nat * list sym := (r_lhs (cr_rule a), r_rhs (cr_rule a)).
  Lemma rule_cmp_key (a b : R) : rule_cmp a b = cmp (rule_key a) (rule_key b).
  Proof. unfold rule_cmp, rule_key. simpl. unfold cmp_pair. simpl. rewrite (vec_cmp_ext _ _ sym_cmp_ok). reflexivity. Qed.
  Lemma rule_cmp_iff (a b : R) : rule_cmp a b = Eq <-> cr_rule a = cr_rule b.
  Proof.
    rewrite rule_cmp_key, cmp_eq. unfold rule_key. destruct (cr_rule a), (cr_rule b); simpl. split; congruence.
  Qed.
End Rules.

(** C52: [Rule] keeps the contracts; rules are equal (and then also have the same position in every order and the same hash) exactly
    when they have the same left side and the same symbols, whatever their reducers are.  Different rules write different things. *)
Theorem C52_rule_traits : forall N T E,
  eq_ok (@rule_eq N T E) /\ ord_ok (@rule_eq N T E) rule_partial_cmp rule_cmp /\ hash_ok (@rule_eq N T E) rule_hash /\
  (forall a b : crule N T E, rule_eq a b = true <-> cr_rule a = cr_rule b) /\
  (forall a b : crule N T E, rule_hash a = rule_hash b -> rule_eq a b = true).
Proof.
  intros N T E. destruct (ord_of rule_key (@rule_cmp N T E) rule_cmp_key) as [O1 O2].
  split; [|split; [|split; [|split]]].
  - constructor; intros *; rewrite ?rule_eq_iff; congruence.
  - constructor; auto.
    + intros x y. unfold rule_partial_cmp, rule_cmp. destruct (_ ?= _); reflexivity.
    + intros x y. rewrite rule_cmp_iff, rule_eq_iff. reflexivity.
  - intros x y H. apply rule_eq_iff in H. unfold rule_hash. rewrite H. reflexivity.
  - apply rule_eq_iff.
  - intros a b H. apply rule_eq_iff. unfold rule_hash, vec_hash, hash_usize in H. simpl in H. injection H as H1 H2 H3. apply Nnat.Nat2N.inj in H1, H2.
    destruct (cr_rule a) as [l1 s1], (cr_rule b) as [l2 s2]. simpl in *. subst l2. f_equal. clear -H2 H3. revert s2 H2 H3.
    induction s1 as [|x s1 IH]; intros [|y s2] H2 H3; simpl in *; try discriminate; auto. injection H2 as H2.
    destruct x as [x|[x| |]], y as [y|[y| |]]; simpl in H3; try discriminate; injection H3; intros; try (f_equal; auto; fail); f_equal; auto;
      repeat f_equal; apply Nnat.Nat2N.inj; auto.
Qed.
Print Assumptions C52_rule_traits.

(** the same for the items that conflict warnings carry, and the sets of the model are ordered as the code orders them *)
Theorem C52_item_traits :
  eq_ok item_eq /\ ord_ok item_eq item_partial_cmp item_cmp /\ hash_ok item_eq item_hash /\ (forall a b, item_eq a b = true <-> a = b) /\
  (forall a b, item_cmp a b = cmp a b) /\ (forall a b, item_hash a = item_hash b -> item_eq a b = true).
Proof.
  assert (He : forall a b, item_eq a b = true <-> a = b).
  { intros [r p l] [r' p' l']. unfold item_eq. simpl. rewrite !andb_true_iff, !Nat.eqb_eq, term_eq_ok. split; [intros [[]]; congruence|intros E; injection E; auto]. }
  assert (Hc : forall a b, item_cmp a b = cmp a b).
  { intros a b. unfold item_cmp. rewrite term_cmp_ok. reflexivity. }
  destruct (ord_of (fun x : item => x) item_cmp Hc) as [O1 O2].
  split; [|split; [|split; [|split; [|split]]]]; auto.
  - constructor; intros *; rewrite ?He; congruence.
  - constructor; auto.
    + intros x y. unfold item_partial_cmp, item_cmp. destruct (i_rule x ?= i_rule y); auto. destruct (i_pos x ?= i_pos y); auto.
    + intros x y. rewrite Hc, cmp_eq, He. reflexivity.
  - intros x y H. apply He in H. congruence.
  - intros [r p l] [r' p' l'] H. apply He. unfold item_hash, hash_usize in H. simpl in H. injection H as H1 H2 H3. apply Nnat.Nat2N.inj in H1, H2. subst.
    destruct l as [x| |], l' as [y| |]; simpl in H3; try discriminate; auto. injection H3 as H3. apply Nnat.Nat2N.inj in H3. subst. reflexivity.
Qed.
Print Assumptions C52_item_traits.

(** two syntaxes are equal exactly when they have equal rules in the same order and the same start symbol *)
Theorem C52_syntax_eq : forall N T E, eq_ok (@syntax_eq N T E) /\
  forall a b : syntax N T E, syntax_eq a b = true <-> map cr_rule (sx_rules a) = map cr_rule (sx_rules b) /\ sx_start a = sx_start b.
Proof.
  intros N T E. assert (Hv : forall l m : list (crule N T E), vec_eq rule_eq l m = true <-> map cr_rule l = map cr_rule m).
  { induction l as [|a l IH]; intros [|b m]; simpl; try (split; congruence). rewrite andb_true_iff, rule_eq_iff, IH. split; [intros []; congruence|intros H; injection H; auto]. }
  assert (He : forall a b : syntax N T E, syntax_eq a b = true <-> map cr_rule (sx_rules a) = map cr_rule (sx_rules b) /\ sx_start a = sx_start b).
  { intros a b. unfold syntax_eq. rewrite andb_true_iff, Hv, Nat.eqb_eq. reflexivity. }
  split; auto. constructor; intros *; rewrite ?He; intuition congruence.
Qed.
Print Assumptions C52_syntax_eq.

(** two rules that differ in their reducers only, and a different one *)
Example C52_example : let a := rule_new_raw 0 [NT' 0] r_one in let b := rule_new_raw 0 [NT' 0] r_id in let c := rule_new_raw 0 [TM' kId] r_id in
  rule_eq a b = true /\ rule_hash a = rule_hash b /\ rule_eq a c = false /\ rule_cmp a c = Lt.
Proof. vm_compute. auto. Qed.

(** C53: [CharRange] keeps the contracts of comparison and of [Borrow<u32>] as far as comparison is concerned, which is what the ordered
    maps and the lookups use; the hash agrees exactly for ranges that agree in both ends *)
Theorem C53_range_traits_partial :
  eq_ok range_eq /\ ord_ok range_eq range_partial_cmp range_cmp /\
  (forall a b, range_cmp a b = N.compare (range_borrow a) (range_borrow b)) /\
  (forall a b, snd a = snd b -> range_eq a b = true -> range_hash a = range_hash b) /\
  (forall a b, range_hash a = range_hash b -> a = b).
Proof.
  destruct (ord_of (H:=Ord_N) (fun x : N * N => fst x) range_cmp (fun x y => eq_refl)) as [O1 O2].
  split; [|split; [|split; [|split]]].
  - constructor; intros *; unfold range_eq; rewrite ?N.eqb_eq; congruence.
  - constructor; auto. intros x y. unfold range_cmp, range_eq. rewrite N.compare_eq_iff, N.eqb_eq. reflexivity.
  - auto.
  - intros [a1 a2] [b1 b2]. unfold range_eq, range_hash. simpl. intros -> H. apply N.eqb_eq in H. congruence.
  - intros [a1 a2] [b1 b2]. unfold range_hash. simpl. congruence.
Qed.
Print Assumptions C53_range_traits_partial.
(** missing: the contract of [Hash] (equal values have equal hashes), and that of [Borrow] for hashing.  Both are false. *)
Theorem C53_range_traits_refuted : ~ hash_ok range_eq range_hash /\ exists a, range_hash a <> [range_borrow a].
Proof.
  split.
  - intros H. specialize (H (97, 98) (97, 99))%N. vm_compute in H. specialize (H eq_refl). discriminate.
  - exists (97, 98)%N. discriminate.
Qed.
Print Assumptions C53_range_traits_refuted.
Example C53_example : range_eq (97, 98)%N (97, 123)%N = true /\ range_cmp (97, 98)%N (98, 99)%N = Lt.
Proof. vm_compute. auto. Qed.
