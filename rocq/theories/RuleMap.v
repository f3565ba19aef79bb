(** * Grammars with the same rules in another place

    Two lists of rules that agree on the rules of reachable nonterminals, wherever these stand, have the same valid items,
    and the reference parser (MachSpec.v) runs on both in the same way, as long as the order of the rules does not matter
    for a decision between reductions. *)
From Coq Require Import List Arith Lia Bool Sorted.
From Verif Require Import Lib Grammar LrModel LrSpec LrSets LrStates LrNew LrTop LrMono ParseModel Trees ParseSpec ParseInv ParseComplete GramFacts
  ParseTerm ParseTop LoopSpec MachSpec MachProofs.
Import ListNotations.

(** [R k k']: rule [k] of the first list is rule [k'] of the second *)
Record matching (rules rules' : list rule) (start : nat) (R : nat -> nat -> Prop) : Prop := {
  mt_rule : forall k k', R k k' -> exists r, nth_error rules k = Some r /\ nth_error rules' k' = Some r;
  mt_fun : forall k a b, R k a -> R k b -> a = b;
  mt_inj : forall k a b, R a k -> R b k -> a = b;
  mt_l : forall k r, nth_error rules k = Some r -> reachable rules start (r_lhs r) -> exists k', R k k';
  mt_r : forall k' r, nth_error rules' k' = Some r -> reachable rules' start (r_lhs r) -> exists k, R k k' }.

Lemma matching_sym rules rules' start R : matching rules rules' start R -> matching rules' rules start (fun a b => R b a).
Proof.
  intros [H1 H2 H3 H4 H5]. split; eauto.
  intros k k' H. destruct (H1 _ _ H) as (r & A & B). eauto.
Qed.

Lemma rewr_incl rs rs' : incl rs rs' -> forall l l', rewr rs l l' -> rewr rs' l l'.
Proof. intros Hi. induction 1; [constructor|]. apply rewr_step; auto. Qed.

Lemma reach_sym rules start r B : reachable rules start (r_lhs r) -> In r rules -> In (NT B) (r_rhs r) -> reachable rules start B.
Proof.
  intros (a & b & H) Hr Hb. apply in_split in Hb as (l1 & l2 & E). exists (a ++ l1), (l2 ++ b). eapply rewr_trans; [exact H|].
  apply rewr_step; auto. rewrite E. rewrite <- !app_assoc. simpl. constructor.
Qed.

Lemma reach_start rules start : reachable rules start start.
Proof. exists [], []. constructor. Qed.

Section Forward.
  Variables (rules rules' : list rule) (start : nat) (R : nat -> nat -> Prop).
  Hypothesis Hm : matching rules rules' start R.

  Lemma rewr_fwd l l' : rewr rules l l' -> (forall A, In (NT A) l -> reachable rules start A) -> rewr rules' l l'.
  Proof.
    induction 1 as [l|l1 r l2 l' Hr H IH]; intros Hl; [constructor|].
    assert (HA : reachable rules start (r_lhs r)) by (apply Hl; rewrite in_app_iff; simpl; auto).
    destruct (In_nth_error _ _ Hr) as [k Hk]. destruct (mt_l _ _ _ _ Hm _ _ Hk HA) as [k' Hkk].
    destruct (mt_rule _ _ _ _ Hm _ _ Hkk) as (r1 & E1 & E2). rewrite Hk in E1. injection E1 as <-.
    apply rewr_step; [eapply nth_error_In; eauto|]. apply IH. intros A HI. rewrite !in_app_iff in HI.
    destruct HI as [HI|[HI|HI]]; [apply Hl; rewrite in_app_iff; auto|eapply reach_sym; eauto|apply Hl; rewrite in_app_iff; simpl; auto].
  Qed.

  Lemma reach_fwd A : reachable rules start A -> reachable rules' start A.
  Proof.
    intros (l1 & l2 & H). exists l1, l2. apply rewr_fwd; auto. intros B [E|[]]. injection E as <-. apply reach_start.
  Qed.

  Variables ss ss' : nat.
  Hypothesis Hss : ~ In ss (nonterminals rules).
  Hypothesis Hss' : ~ In ss' (nonterminals rules').
  Notation rs := (augment rules start ss).
  Notation rs' := (augment rules' start ss').
  Notation sr := (length rules).
  Notation sr' := (length rules').

  (** the same for the augmented grammars *)
  Definition Rp (k k' : nat) : Prop := (k = sr /\ k' = sr') \/ R k k'.

  Lemma R_lt k k' : R k k' -> k < sr /\ k' < sr'.
  Proof.
    intros H. destruct (mt_rule _ _ _ _ Hm _ _ H) as (r & A & B). split; apply nth_error_Some; congruence.
  Qed.

  (** the rules of valid items are reachable *)
  Lemma valid_reach g it : valid rs sr g it -> i_rule it = sr \/ exists r, nth_error rules (i_rule it) = Some r /\ reachable rules start (r_lhs r).
  Proof.
    induction 1 as [|g k p la r X H IH Hr Hp|g k p la r A k' r' t H IH Hr Hp Hr' HA Ht]; simpl in *; auto.
    destruct (Nat.eq_dec k' sr) as [->|Hk']; [auto|]. right. exists r'. rewrite augment_old in Hr' by auto. split; auto. rewrite HA.
    destruct (Nat.eq_dec k sr) as [->|Hk].
    - rewrite augment_start in Hr. injection Hr as <-. simpl in Hp. destruct p as [|p]; [|destruct p; discriminate].
      injection Hp as <-. apply reach_start.
    - rewrite augment_old in Hr by auto. destruct IH as [IH|(r0 & A1 & A2)]; [congruence|]. rewrite Hr in A1. injection A1 as <-.
      eapply reach_sym; eauto; [eapply nth_error_In; eauto|eapply nth_error_In; eauto].
  Qed.

  Lemma valid_partner g it : valid rs sr g it -> exists k', Rp (i_rule it) k'.
  Proof.
    intros H. destruct (valid_reach _ _ H) as [E|(r & E & Hr)]; [exists sr'; left; auto|].
    destruct (mt_l _ _ _ _ Hm _ _ E Hr) as [k' Hk']. exists k'. right. auto.
  Qed.

  Lemma Rp_rule k k' r : Rp k k' -> nth_error rs k = Some r -> k <> sr -> nth_error rs' k' = Some r /\ R k k'.
  Proof.
    intros [[-> _]|H] Hr Hk; [congruence|]. split; auto. destruct (mt_rule _ _ _ _ Hm _ _ H) as (r1 & A & B).
    rewrite augment_old in Hr by auto. pose proof (R_lt _ _ H). rewrite augment_old by lia. congruence.
  Qed.

  Lemma rest_fwd g k p la r X : valid rs sr g (mk_item k p la) -> nth_error rs k = Some r -> nth_error (r_rhs r) p = Some X ->
    forall l, rewr rs (skipn (S p) (r_rhs r) ++ [TM la]) l -> rewr rs' (skipn (S p) (r_rhs r) ++ [TM la]) l.
  Proof.
    intros H Hr Hp l Hl. apply (rewr_incl rules'); [apply aug_incl|]. destruct (Nat.eq_dec k sr) as [E1|E1].
    - subst k. rewrite augment_start in Hr. injection Hr as <-. simpl in Hp. destruct p as [|p]; [|destruct p; discriminate].
      simpl in *. apply rewr_fwd; [|intros B [E|[]]; discriminate]. eapply rewr_aug; eauto. simpl. intros [E|[]]. discriminate.
    - pose proof (valid_reach _ _ H) as [E|(r0 & E2 & E3)]; [simpl in E; congruence|]. simpl in E2. rewrite augment_old in Hr by auto.
      rewrite Hr in E2. injection E2 as <-. assert (Hir : In r rules) by (eapply nth_error_In; eauto).
      assert (Hin : forall B, In (NT B) (skipn (S p) (r_rhs r) ++ [TM la]) -> In (NT B) (r_rhs r)).
      { intros B HB. apply in_app_iff in HB as [HB|[HB|[]]]; [|discriminate]. rewrite <- (firstn_skipn (S p)), in_app_iff. auto. }
      apply rewr_fwd.
      + eapply rewr_aug; eauto. intros HB. apply Hin in HB. apply Hss, nonterminals_spec. exists r. auto.
      + intros B HB. eapply reach_sym; eauto.
  Qed.

  Lemma valid_fwd g it : valid rs sr g it -> forall k', Rp (i_rule it) k' -> valid rs' sr' g (mk_item k' (i_pos it) (i_la it)).
  Proof.
    assert (Hst : forall g it, valid rs sr g it -> i_rule it = sr -> valid rs' sr' g (mk_item sr' (i_pos it) (i_la it))).
    { intros g0 it0 H0 E0. pose proof (start_items rules start ss Hss _ _ H0 E0) as E1. pose proof (start_item_la rules start ss Hss _ _ H0 E0) as E2.
      destruct (valid_split _ _ _ _ H0) as (r & _ & Hr & Hle & _); [exists (mk_rule ss [NT start]); apply augment_start|].
      rewrite E0, augment_start in Hr. injection Hr as <-. simpl in Hle. rewrite E1, E2.
      destruct (i_pos it0) as [|[|p]]; [| |lia]; simpl.
      - constructor.
      - apply (valid_goto rs' sr' [] sr' 0 TEoi (mk_rule ss' [NT start]) (NT start)); [constructor|apply augment_start|reflexivity]. }
    induction 1 as [|g k p la r X H IH Hr Hp|g k p la r A k2 r2 t H IH Hr Hp Hr2 HA Ht]; intros k' Hk'.
    - simpl in *. destruct Hk' as [[_ ->]|Hk']; [constructor|]. apply R_lt in Hk'. lia.
    - simpl in *. destruct (Nat.eq_dec k sr) as [Ek|Ek].
      + destruct Hk' as [[_ ->]|Hk']; [|apply R_lt in Hk'; lia]. apply (Hst (g ++ [X]) (mk_item k (S p) la)); auto. econstructor; eauto.
      + destruct (Rp_rule _ _ _ Hk' Hr Ek) as [Hr' _]. econstructor; eauto.
    - pose proof (valid_closure _ _ _ _ _ _ _ _ _ _ _ H Hr Hp Hr2 HA Ht) as Hv. simpl in *. destruct (Nat.eq_dec k2 sr) as [Ek|Ek].
      + destruct Hk' as [[_ ->]|Hk']; [|apply R_lt in Hk'; lia]. apply (Hst g (mk_item k2 0 t)); auto.
      + destruct (Rp_rule _ _ _ Hk' Hr2 Ek) as [Hr2' _].
        pose proof (rest_fwd _ _ _ _ _ _ H Hr Hp) as Hf.
        destruct Ht as [l Hl]. destruct (valid_partner _ _ H) as [k1 Hk1]. simpl in Hk1. specialize (IH _ Hk1).
        destruct (Nat.eq_dec k sr) as [E1|E1].
        * subst k. destruct Hk1 as [[_ ->]|Hk1]; [|apply R_lt in Hk1; lia]. rewrite augment_start in Hr. injection Hr as <-.
          simpl in Hp. destruct p as [|p]; [|destruct p; discriminate]. injection Hp as HA'.
          eapply valid_closure; [exact IH|apply augment_start|simpl; rewrite HA'; reflexivity|exact Hr2'|auto|exists l; apply Hf; exact Hl].
        * destruct (Rp_rule _ _ _ Hk1 Hr E1) as [Hr' _].
          eapply valid_closure; [exact IH|exact Hr'|exact Hp|exact Hr2'|auto|exists l; apply Hf; exact Hl].
  Qed.

  Lemma wants_fwd g X : wants rs sr g X -> wants rs' sr' g X.
  Proof.
    intros (k & p & la & r & Hv & Hr & Hp). destruct (valid_partner _ _ Hv) as [k' Hk']. pose proof (valid_fwd _ _ Hv _ Hk') as Hv'. simpl in *.
    destruct (Nat.eq_dec k sr) as [->|E].
    - destruct Hk' as [[_ ->]|Hk']; [|apply R_lt in Hk'; lia]. rewrite augment_start in Hr. injection Hr as <-.
      exists sr', p, la, (mk_rule ss' [NT start]). split; auto. split; [apply augment_start|auto].
    - destruct (Rp_rule _ _ _ Hk' Hr E) as [Hr' _]. exists k', p, la, r. auto.
  Qed.

  Lemma complete_fwd g k t k' : complete rs sr g k t -> Rp k k' -> complete rs' sr' g k' t.
  Proof.
    intros (r & Hr & Hv) Hk'. pose proof (valid_fwd _ _ Hv _ Hk') as Hv'. simpl in *.
    destruct (Nat.eq_dec k sr) as [->|E].
    - destruct Hk' as [[_ ->]|Hk']; [|apply R_lt in Hk'; lia]. rewrite augment_start in Hr. injection Hr as <-.
      exists (mk_rule ss' [NT start]). split; [apply augment_start|auto].
    - destruct (Rp_rule _ _ _ Hk' Hr E) as [Hr' _]. exists r. auto.
  Qed.

  Lemma complete_partner g k t : complete rs sr g k t -> k <> sr -> exists k', R k k'.
  Proof.
    intros (r & Hr & Hv) Hk. destruct (valid_partner _ _ Hv) as [k' [[E _]|H]]; simpl in *; [congruence|eauto].
  Qed.

  Lemma wants_error_fwd g k k' : wants_error rs sr g k -> R k k' -> wants_error rs' sr' g k'.
  Proof.
    intros (p & la & r & Hv & Hr & Hp) Hk'. pose proof (R_lt _ _ Hk'). exists p, la, r.
    split; [apply (valid_fwd _ _ Hv); right; auto|]. split; auto. apply (Rp_rule k k'); auto; [right; auto|lia].
  Qed.

  Lemma wants_error_partner g k : wants_error rs sr g k -> exists k', R k k'.
  Proof.
    intros (p & la & r & Hv & Hr & Hp). destruct (valid_partner _ _ Hv) as [k' [[E _]|H]]; simpl in *; [|eauto].
    subst k. rewrite augment_start in Hr. injection Hr as <-. simpl in Hp. destruct p as [|[|p]]; discriminate.
  Qed.

  (** a nonterminal without rules that keeps [new] from building is one in both *)
  Lemma dangling_fwd : (exists r, In r rules /\ r_lhs r = start) -> dangling rs sr -> dangling rs' sr'.
  Proof.
    intros (r1 & Hr1 & Es) (g & k & p & la & r & A & t & Hv & Hr & Hp & Hno & l & Hl).
    pose proof (rest_fwd _ _ _ _ _ _ Hv Hr Hp _ Hl) as Hl'. destruct (valid_partner _ _ Hv) as [k' Hk']. pose proof (valid_fwd _ _ Hv _ Hk') as Hv'. simpl in *.
    destruct (Nat.eq_dec k sr) as [->|Ek].
    { rewrite augment_start in Hr. injection Hr as <-. simpl in Hp. destruct p as [|[|p]]; [|discriminate|discriminate]. injection Hp as <-.
      exfalso. apply (Hno r1); [apply aug_incl; auto|auto]. }
    destruct (Rp_rule _ _ _ Hk' Hr Ek) as [Hr' HR]. exists g, k', p, la, r, A, t. split; auto. split; auto. split; auto. split; [|exists l; auto].
    destruct (valid_reach _ _ Hv) as [E|(r0 & E2 & E3)]; [simpl in E; congruence|]. simpl in E2. rewrite augment_old in Hr by auto.
    rewrite Hr in E2. injection E2 as <-. assert (HA : reachable rules start A).
    { eapply reach_sym; [exact E3|eapply nth_error_In; eauto|eapply nth_error_In; eauto]. }
    intros r' Hr2 El. apply in_app_iff in Hr2 as [Hr2|[<-|[]]].
    - destruct (In_nth_error _ _ Hr2) as [k2 Hk2]. destruct (mt_r _ _ _ _ Hm k2 r' Hk2) as [k1 Hk1]; [rewrite El; apply reach_fwd; auto|].
      destruct (mt_rule _ _ _ _ Hm _ _ Hk1) as (r3 & F1 & F2). rewrite Hk2 in F2. injection F2 as <-.
      apply (Hno r'); auto. apply aug_incl. eapply nth_error_In; eauto.
    - simpl in El. subst A. apply Hss', nonterminals_spec. exists r. pose proof (R_lt _ _ HR). rewrite augment_old in Hr' by lia.
      split; [eapply nth_error_In; eauto|]. right. eapply nth_error_In; eauto.
  Qed.
End Forward.

Lemma conflict_free_fwd rules rules' start R ss ss' : matching rules rules' start R -> ~ In ss (nonterminals rules) -> ~ In ss' (nonterminals rules') ->
  conflict_free (augment rules start ss) (length rules) -> conflict_free (augment rules' start ss') (length rules').
Proof.
  intros Hm Hss Hss' Hcf g k' t Hk' Hc'. pose proof (matching_sym _ _ _ _ Hm) as Hm'.
  destruct (complete_partner _ _ _ _ Hm' ss' _ _ _ Hc' Hk') as [k HR]. pose proof (R_lt _ _ _ _ Hm _ _ HR) as [Hlt _].
  assert (Hc : complete (augment rules start ss) (length rules) g k t) by (eapply (complete_fwd _ _ _ _ Hm' ss' ss); eauto; right; auto).
  destruct (Hcf g k t ltac:(lia) Hc) as [H1 H2]. split.
  - intros Hw. apply H1. eapply (wants_fwd _ _ _ _ Hm' ss' ss); eauto.
  - intros k1' Hk1' Hc1'. destruct (complete_partner _ _ _ _ Hm' ss' _ _ _ Hc1' Hk1') as [k1 HR1]. pose proof (R_lt _ _ _ _ Hm _ _ HR1) as [Hlt1 _].
    assert (Hc1 : complete (augment rules start ss) (length rules) g k1 t) by (eapply (complete_fwd _ _ _ _ Hm' ss' ss); eauto; right; auto).
    rewrite (H2 k1 ltac:(lia) Hc1) in HR1. eapply (mt_fun _ _ _ _ Hm); eauto.
Qed.

(** a sorted list with given members *)
Lemma filter_sorted (f : nat -> bool) n : forall k, StronglySorted Nat.lt (filter f (seq k n)).
Proof.
  induction n as [|n IH]; intros k; simpl; [constructor|]. destruct (f k); auto. constructor; auto.
  apply Forall_forall. intros x Hx. apply filter_In in Hx as [Hx _]. apply in_seq in Hx. unfold Nat.lt. lia.
Qed.
Lemma sorted_list (l : list nat) : exists l', StronglySorted Nat.lt l' /\ forall k, In k l' <-> In k l.
Proof.
  exists (filter (fun k => existsb (Nat.eqb k) l) (seq 0 (S (list_max l)))). split; [apply filter_sorted|].
  intros k. rewrite filter_In, in_seq, existsb_exists. split.
  - intros (_ & y & Hy & He). apply Nat.eqb_eq in He. subst y. auto.
  - intros H. split; [|exists k; split; auto; apply Nat.eqb_refl]. pose proof (proj1 (list_max_le l (list_max l)) (le_n _)) as Hl.
    rewrite Forall_forall in Hl. specialize (Hl _ H). lia.
Qed.

(** ** The reference parser *)
Section Sim.
  Context {N T E : Type} (tix : T -> nat).

  Record same_rules (rules rules' : list rule) (start ss ss' : nat) (gens gens' : list (reducer N T E)) (R : nat -> nat -> Prop) : Prop := {
    sr_match : matching rules rules' start R;
    sr_ss : ~ In ss (nonterminals rules);
    sr_ss' : ~ In ss' (nonterminals rules');
    sr_gens : forall k k', R k k' -> nth_error gens k = nth_error gens' k';
    sr_order : (forall a a' b b', R a a' -> R b b' -> (a <= b <-> a' <= b')) \/
               (conflict_free (augment rules start ss) (length rules) /\ conflict_free (augment rules' start ss') (length rules')) }.

  Lemma same_rules_sym rules rules' start ss ss' gens gens' R :
    same_rules rules rules' start ss ss' gens gens' R -> same_rules rules' rules start ss' ss gens' gens (fun a b => R b a).
  Proof.
    intros [H1 H2 H3 H4 H5]. split; auto.
    - apply matching_sym; auto.
    - intros k k' H. symmetry. auto.
    - destruct H5 as [H5|[H5 H6]]; [left|right; auto]. intros a a' b b' Ha Hb. symmetry. apply H5; auto.
  Qed.

  (** configurations that differ only in the numbers of the error rules in use *)
  Record crel (R : nat -> nat -> Prop) (c c' : conf (N := N)) : Prop := {
    cr_cells : c_cells c = c_cells c';
    cr_pos : c_pos c = c_pos c';
    cr_far : c_far c = c_far c';
    cr_nil : c_act c = [] <-> c_act c' = [];
    cr_act : forall k k', R k k' -> (In k (c_act c) <-> In k' (c_act c')) }.

  Lemma crel_sym R c c' : crel R c c' -> crel (fun a b => R b a) c' c.
  Proof. intros [H1 H2 H3 H4 H5]. split; try congruence; [symmetry; auto|]. intros k k' H. symmetry. auto. Qed.

  Lemma crel_look w R c c' : crel R c c' -> look tix w c = look tix w c'.
  Proof. intros H. unfold look. rewrite (cr_pos _ _ _ H). reflexivity. Qed.
  Lemma crel_taken (w : list T) R c c' : crel R c c' -> taken w c = taken w c'.
  Proof. intros H. unfold taken. rewrite (cr_pos _ _ _ H), (cr_far _ _ _ H). reflexivity. Qed.
  Lemma crel_syms R c c' : crel R c c' -> c_syms c = c_syms c'.
  Proof. intros H. unfold c_syms. rewrite (cr_cells _ _ _ H). reflexivity. Qed.

  Section One.
    Variables (rules rules' : list rule) (start ss ss' : nat) (gens gens' : list (reducer N T E)) (R : nat -> nat -> Prop) (w : list T).
    Hypothesis H : same_rules rules rules' start ss ss' gens gens' R.
    Notation rs := (augment rules start ss).
    Notation rs' := (augment rules' start ss').
    Notation sr := (length rules).
    Notation sr' := (length rules').

    Lemma shift_fwd g t : can_shift rules start ss g t -> can_shift rules' start ss' g t.
    Proof. apply wants_fwd with (R := R); apply H. Qed.
    Lemma accept_fwd g t : can_accept rules start ss g t -> can_accept rules' start ss' g t.
    Proof.
      intros [-> Hc]. split; auto. eapply complete_fwd with (R := R); try apply H; [exact Hc|]. left. auto.
    Qed.
    Lemma reduce_fwd g t k : can_reduce rules start ss g t k -> exists k', R k k' /\ can_reduce rules' start ss' g t k'.
    Proof.
      intros [Hk Hc]. destruct (complete_partner rules rules' start R (sr_match _ _ _ _ _ _ _ _ H) ss _ _ _ Hc) as [k' Hk']; [lia|].
      exists k'. split; auto. split; [apply (R_lt _ _ _ _ (sr_match _ _ _ _ _ _ _ _ H) _ _ Hk')|].
      eapply complete_fwd with (R := R); try apply H; [exact Hc|]. right. auto.
    Qed.
    Lemma usable_fwd act act' g k : (act = [] -> act' = []) -> (forall k k', R k k' -> (In k act -> In k' act')) ->
      usable rules start ss act g k -> exists k', R k k' /\ usable rules' start ss' act' g k'.
    Proof.
      intros Hn Ha [Hw Hin]. destruct (wants_error_partner rules rules' start R (sr_match _ _ _ _ _ _ _ _ H) ss _ _ Hw) as [k' Hk'].
      exists k'. split; auto. split; [eapply wants_error_fwd with (R := R); try apply H; eauto|]. destruct Hin as [Hin|Hin]; [left; auto|right; eauto].
    Qed.
  End One.

  Section Two.
    Variables (rules rules' : list rule) (start ss ss' : nat) (gens gens' : list (reducer N T E)) (R : nat -> nat -> Prop) (w : list T).
    Hypothesis H : same_rules rules rules' start ss ss' gens gens' R.
    Let H' := same_rules_sym _ _ _ _ _ _ _ _ H.
    Notation rs := (augment rules start ss).
    Notation rs' := (augment rules' start ss').
    Notation sr := (length rules).
    Notation sr' := (length rules').

    Lemma shift_iff g t : can_shift rules start ss g t <-> can_shift rules' start ss' g t.
    Proof. split; [apply (shift_fwd _ _ _ _ _ _ _ _ H)|apply (shift_fwd _ _ _ _ _ _ _ _ H')]. Qed.
    Lemma accept_iff g t : can_accept rules start ss g t <-> can_accept rules' start ss' g t.
    Proof. split; [apply (accept_fwd _ _ _ _ _ _ _ _ H)|apply (accept_fwd _ _ _ _ _ _ _ _ H')]. Qed.

    Lemma do_accept_iff g t : do_accept rules start ss g t <-> do_accept rules' start ss' g t.
    Proof. unfold do_accept. rewrite shift_iff, accept_iff. reflexivity. Qed.
    Lemma do_recover_iff g t : do_recover rules start ss g t <-> do_recover rules' start ss' g t.
    Proof.
      unfold do_recover. rewrite shift_iff, accept_iff. split; intros (A & B & C); (split; [exact A|split; [exact B|]]); intros k Hk.
      - destruct (reduce_fwd _ _ _ _ _ _ _ _ H' _ _ _ Hk) as (k' & _ & Hk'). eapply C; eauto.
      - destruct (reduce_fwd _ _ _ _ _ _ _ _ H _ _ _ Hk) as (k' & _ & Hk'). eapply C; eauto.
    Qed.
    Lemma do_reduce_fwd g t k : do_reduce rules start ss g t k -> exists k', R k k' /\ do_reduce rules' start ss' g t k'.
    Proof.
      intros (A & B & C & D). destruct (reduce_fwd _ _ _ _ _ _ _ _ H _ _ _ C) as (k' & Hk & C'). exists k'. split; auto.
      split; [rewrite <- shift_iff; auto|]. split; [rewrite <- accept_iff; auto|]. split; auto.
      intros k1' C1'. destruct (reduce_fwd _ _ _ _ _ _ _ _ H' _ _ _ C1') as (k1 & Hk1 & C1).
      destruct (sr_order _ _ _ _ _ _ _ _ H) as [Ho|[Hc _]].
      - apply (Ho _ _ _ _ Hk Hk1). auto.
      - destruct C as [C0 C], C1 as [C2 C1]. destruct (Hc g k t ltac:(lia) C) as [_ Hu]. rewrite (Hu k1 ltac:(lia) C1) in Hk1.
        rewrite (mt_fun _ _ _ _ (sr_match _ _ _ _ _ _ _ _ H) _ _ _ Hk Hk1). lia.
    Qed.

    Lemma usable_iff c c' g k k' : crel R c c' -> R k k' -> usable rules start ss (c_act c) g k -> usable rules' start ss' (c_act c') g k'.
    Proof.
      intros Hc Hk Hu. destruct (usable_fwd _ _ _ _ _ _ _ _ H (c_act c) (c_act c') g k) as (k1 & Hk1 & Hu1); auto.
      - apply (cr_nil _ _ _ Hc).
      - intros a a' Ha. apply (cr_act _ _ _ Hc _ _ Ha).
      - rewrite (mt_fun _ _ _ _ (sr_match _ _ _ _ _ _ _ _ H) _ _ _ Hk Hk1). exact Hu1.
    Qed.
  End Two.

  Section Three.
    Variables (rules rules' : list rule) (start ss ss' : nat) (gens gens' : list (reducer N T E)) (R : nat -> nat -> Prop) (w : list T).
    Hypothesis H : same_rules rules rules' start ss ss' gens gens' R.
    Let H' := same_rules_sym _ _ _ _ _ _ _ _ H.

    Lemma resumes_fwd c c' m : crel R c c' -> resumes tix rules start ss w c m -> resumes tix rules' start ss' w c' m.
    Proof.
      intros Hc (A & B & k & Hu). unfold resumes. rewrite <- (cr_cells _ _ _ Hc), <- (crel_look w _ _ _ Hc), <- (crel_syms _ _ _ Hc). split; auto. split; auto.
      destruct (usable_fwd _ _ _ _ _ _ _ _ H (c_act c) (c_act c') (firstn m (c_syms c)) k) as (k1 & Hk1 & Hu1); auto.
      - apply (cr_nil _ _ _ Hc).
      - intros a a' Ha. apply (cr_act _ _ _ Hc _ _ Ha).
      - exists k1. exact Hu1.
    Qed.
  End Three.

  Section Four.
    Variables (rules rules' : list rule) (start ss ss' : nat) (gens gens' : list (reducer N T E)) (R : nat -> nat -> Prop) (w : list T).
    Hypothesis H : same_rules rules rules' start ss ss' gens gens' R.
    Let H' := same_rules_sym _ _ _ _ _ _ _ _ H.

    Lemma R_rule k k' r : R k k' -> nth_error rules k = Some r -> nth_error rules' k' = Some r.
    Proof. intros Hk Hr. destruct (mt_rule _ _ _ _ (sr_match _ _ _ _ _ _ _ _ H) _ _ Hk) as (r1 & A & B). congruence. Qed.

    Lemma existsb_In k l : existsb (Nat.eqb k) l = true <-> In k l.
    Proof.
      rewrite existsb_exists. split; [intros (x & Hx & Ex); apply Nat.eqb_eq in Ex; subst; auto|].
      intros Hi. exists k. split; auto. apply Nat.eqb_refl.
    Qed.

    Lemma mstep_fwd c c' c1 : crel R c c' -> mstep tix rules start ss gens w c c1 -> exists c1', mstep tix rules' start ss' gens' w c' c1' /\ crel R c1 c1'.
    Proof.
      intros Hc Hs. pose proof (crel_look w _ _ _ Hc) as El. pose proof (crel_taken w _ _ _ Hc) as Et. pose proof (crel_syms _ _ _ Hc) as Es.
      pose proof (cr_cells _ _ _ Hc) as Ec. pose proof (cr_pos _ _ _ Hc) as Ep.
      inversion Hs as [x Hx1 Hx2 E1|k r l l' args f v D1 D2 D3 D4 D5 D6 D7 E1|m act D1 D2 D3 D4 D5 i dropped E1].
      - eexists. split; [apply m_shift with (x := x)|].
        + rewrite <- Es, <- El. apply (shift_fwd _ _ _ _ _ _ _ _ H). auto.
        + rewrite <- Ep. auto.
        + split; simpl; try congruence; apply Hc.
      - rewrite Es, El in D1. destruct (do_reduce_fwd _ _ _ _ _ _ _ _ H _ _ _ D1) as (k' & Hk & D1').
        eexists. split; [eapply m_reduce with (k := k') (r := r) (l := l) (l' := l')|].
        + exact D1'.
        + eapply R_rule; eauto.
        + congruence.
        + exact D4.
        + exact D5.
        + rewrite <- (sr_gens _ _ _ _ _ _ _ _ H _ _ Hk). exact D6.
        + exact D7.
        + assert (Ex : existsb (Nat.eqb k) (c_act c) = existsb (Nat.eqb k') (c_act c')).
          { apply eq_true_iff_eq. rewrite !existsb_In. apply (cr_act _ _ _ Hc _ _ Hk). }
          rewrite Et, Ep. split; cbn [c_cells c_pos c_far c_act]; auto.
          * rewrite Ex. destruct (existsb (Nat.eqb k') (c_act c')); [tauto|apply Hc].
          * intros a a' Ha. rewrite Ex. destruct (existsb (Nat.eqb k') (c_act c')); [simpl; tauto|apply Hc; auto].
      - rewrite Es, El in D1. apply (do_recover_iff _ _ _ _ _ _ _ _ H) in D1.
        assert (Hpart : forall l : list nat, (forall k, In k l -> In k act) -> exists l', (forall k', In k' l' -> exists k, In k l /\ R k k') /\ (forall k k', In k l -> R k k' -> In k' l')).
        { induction l as [|k l IH]; intros Hl; [exists []; split; [intros ? []|intros ? ? []]|].
          destruct IH as (l' & A1 & A2); [intros; apply Hl; right; auto|].
          assert (Hu : usable rules start ss (c_act c) (firstn m (c_syms c)) k) by (apply D5, Hl; left; auto). destruct Hu as [Hw _].
          destruct (wants_error_partner rules rules' start R (sr_match _ _ _ _ _ _ _ _ H) ss _ _ Hw) as [k' Hk']. exists (k' :: l'). split.
          - intros k1 [<-|Hk1]; [exists k; split; [left; auto|auto]|]. destruct (A1 _ Hk1) as (k2 & B1 & B2). exists k2. split; [right; auto|auto].
          - intros k1 k1' [<-|Hk1] Hr1; [left; apply (mt_fun _ _ _ _ (sr_match _ _ _ _ _ _ _ _ H) k); auto|right; eauto]. }
        destruct (Hpart act (fun k Hk => Hk)) as (l' & A1 & A2). destruct (sorted_list l') as (act' & S1 & S2).
        exists (mk_conf (firstn m (c_cells c') ++ [CErr (Nat.min (first_pos (skipn m (c_cells c')) (if c_pos c' <? length w then c_pos c' else 0))
                  (first_err (skipn m (c_cells c')) (if c_pos c' <? length w then c_pos c' else 0))) (if c_pos c' <? length w then c_pos c' else 0)])
                  (match skipn m (c_cells c') with [] => c_pos c' | _ => S (Nat.min (first_pos (skipn m (c_cells c')) (if c_pos c' <? length w then c_pos c' else 0)) (c_pos c')) end)
                  (taken w c') act'). split.
        + apply m_recover; auto.
          * eapply (resumes_fwd _ _ _ _ _ _ _ _ _ H); eauto.
          * intros m' Hm'. apply D3. eapply (resumes_fwd _ _ _ _ _ _ _ _ _ H'); eauto. apply crel_sym. auto.
          * intros k'. rewrite S2. split.
            -- intros Hk'. destruct (A1 _ Hk') as (k & B1 & B2). apply D5 in B1. rewrite <- Es. eapply (usable_iff _ _ _ _ _ _ _ _ H); eauto.
            -- intros Hu. destruct (usable_fwd _ _ _ _ _ _ _ _ H' (c_act c') (c_act c) _ _ (proj2 (cr_nil _ _ _ Hc)) (fun a b Hab => proj2 (cr_act _ _ _ Hc _ _ Hab)) Hu) as (k & Hk & Hu1).
               apply (A2 k); auto. apply D5. rewrite Es. exact Hu1.
        + unfold dropped, i. rewrite Ec, Ep, Et. split; cbn [c_cells c_pos c_far c_act]; auto.
          * split; intros ->.
            -- destruct act' as [|k' act']; auto. destruct (A1 k') as (k & [] & _). apply S2. left. auto.
            -- destruct act as [|k act]; auto. exfalso.
               assert (Hu : usable rules start ss (c_act c) (firstn m (c_syms c)) k) by (apply D5; left; auto). destruct Hu as [Hw _].
               destruct (wants_error_partner rules rules' start R (sr_match _ _ _ _ _ _ _ _ H) ss _ _ Hw) as [k' Hk'].
               apply (proj2 (S2 k')). apply (A2 k); auto. left. auto.
          * intros k k' Hk. rewrite S2. split; [intros Hi; eapply A2; eauto|]. intros Hi. destruct (A1 _ Hi) as (k2 & B1 & B2).
            rewrite (mt_inj _ _ _ _ (sr_match _ _ _ _ _ _ _ _ H) _ _ _ Hk B2). exact B1.
    Qed.

    Lemma mend_fwd c c' r : crel R c c' -> mend tix rules start ss gens w c r -> mend tix rules' start ss' gens' w c' r.
    Proof.
      intros Hc He. pose proof (crel_look w _ _ _ Hc) as El. pose proof (crel_taken w _ _ _ Hc) as Et. pose proof (crel_syms _ _ _ Hc) as Es.
      pose proof (cr_cells _ _ _ Hc) as Ec. pose proof (cr_pos _ _ _ Hc) as Ep.
      inversion He as [A v i D1 D2 E1|D1 D2 E1|k r0 l l' args f x D1 D2 D3 D4 D5 D6 D7 E1|k r0 l l' args f D1 D2 D3 D4 D5 D6 D7 E1|k r0 l l' D1 D2 D3 D4 D5 E1];
        rewrite Es, El in D1; try rewrite Et.
      - eapply e_accept; [eapply (do_accept_iff _ _ _ _ _ _ _ _ H); eauto|rewrite <- Ec; eauto].
      - apply e_not_found; [eapply (do_recover_iff _ _ _ _ _ _ _ _ H); eauto|]. intros m Hm. apply (D2 m).
        eapply (resumes_fwd _ _ _ _ _ _ _ _ _ H'); eauto. apply crel_sym. auto.
      - destruct (do_reduce_fwd _ _ _ _ _ _ _ _ H _ _ _ D1) as (k' & Hk & D1').
        eapply e_error with (k := k') (r := r0); [exact D1'|eapply R_rule; eauto|rewrite <- Ec; exact D3|exact D4|exact D5|rewrite <- (sr_gens _ _ _ _ _ _ _ _ H _ _ Hk); exact D6|exact D7].
      - destruct (do_reduce_fwd _ _ _ _ _ _ _ _ H _ _ _ D1) as (k' & Hk & D1').
        eapply e_panic with (k := k') (r := r0); [exact D1'|eapply R_rule; eauto|rewrite <- Ec; exact D3|exact D4|exact D5|rewrite <- (sr_gens _ _ _ _ _ _ _ _ H _ _ Hk); exact D6|exact D7].
      - destruct (do_reduce_fwd _ _ _ _ _ _ _ _ H _ _ _ D1) as (k' & Hk & D1').
        eapply e_slice with (k := k') (r := r0); [exact D1'|eapply R_rule; eauto|rewrite <- Ec; exact D3|exact D4|exact D5].
    Qed.

    Lemma msteps_fwd n c c1 : msteps tix rules start ss gens w n c c1 -> forall c', crel R c c' -> exists c1', msteps tix rules' start ss' gens' w n c' c1' /\ crel R c1 c1'.
    Proof.
      induction 1 as [c|n c c1 c2 Hs Hss IH]; intros c' Hc; [exists c'; split; [constructor|auto]|].
      destruct (mstep_fwd _ _ _ Hc Hs) as (c1' & Hs' & Hc1). destruct (IH _ Hc1) as (c2' & Hs2 & Hc2). exists c2'. split; auto. econstructor; eauto.
    Qed.

    Lemma crel_init : crel R c_init c_init.
    Proof. split; simpl; auto; [tauto|]. intros k k' _. tauto. Qed.

    Lemma mach_ends_fwd r : mach_ends tix rules start ss gens w r -> mach_ends tix rules' start ss' gens' w r.
    Proof.
      intros (n & c & Hs & He). destruct (msteps_fwd _ _ _ Hs _ crel_init) as (c' & Hs' & Hc). exists n, c'. split; auto. eapply mend_fwd; eauto.
    Qed.
    Lemma mach_forever_fwd : mach_forever tix rules start ss gens w -> mach_forever tix rules' start ss' gens' w.
    Proof. intros Hf n. destruct (Hf n) as [c Hs]. destruct (msteps_fwd _ _ _ Hs _ crel_init) as (c' & Hs' & _). exists c'. auto. Qed.
  End Four.
End Sim.
