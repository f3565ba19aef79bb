(** * Parsers with the same tables up to the numbering of the states behave alike *)
From Coq Require Import List Arith Lia Bool Sorted.
From Verif Require Import Lib Grammar LrModel LrSpec LrSets LrStates LrNew LrTop LrMono ParseModel Trees ParseSpec ParseInv ParseComplete GramFacts ParseTerm ParseTop ParseMore.
Import ListNotations.

Section Hash.
  Context {N T E : Type} (tix : T -> nat).
  Variables (rs : list rule) (sr : nat) (p1 p2 : lr_parser) (gs : list (reducer N T E)).
  Hypothesis H1 : canonical rs sr p1.
  Hypothesis H2 : canonical rs sr p2.
  Let P1 := mk_lr1 p1 gs.
  Let P2 := mk_lr1 p2 gs.

  (** states reached by the same string *)
  Definition same_state (q1 q2 : nat) : Prop := exists g, state_of p1 g = Some q1 /\ state_of p2 g = Some q2.
  Definition same_set (a b : list nat) : Prop := forall x, In x a <-> In x b.
  Definition same_entry (a b : nat * entry N) : Prop := same_state (fst a) (fst b) /\ snd a = snd b.
  Record same_ps (s1 s2 : pstate N T) : Prop := {
    sp_iter : ps_iter s1 = ps_iter s2;
    sp_syms : ps_syms s1 = ps_syms s2;
    sp_buf : ps_buf s1 = ps_buf s2;
    sp_state : same_state (ps_state s1) (ps_state s2);
    sp_stack : Forall2 same_entry (ps_stack s1) (ps_stack s2);
    sp_rec : same_set (ps_rec s1) (ps_rec s2) }.

  Lemma same_set_nil a b : same_set a b -> (a = [] <-> b = []).
  Proof.
    intros H. split; intros ->.
    - destruct b as [|x b]; auto. exfalso. apply (H x). left; auto.
    - destruct a as [|x a]; auto. exfalso. apply (H x). left; auto.
  Qed.
  Lemma existsb_eqb x (l : list nat) : existsb (Nat.eqb x) l = true <-> In x l.
  Proof. rewrite existsb_exists. split; [intros (y & H & E0); apply Nat.eqb_eq in E0; subst; auto|intros H; exists x; split; auto; apply Nat.eqb_refl]. Qed.
  Lemma same_existsb x a b : same_set a b -> existsb (Nat.eqb x) a = existsb (Nat.eqb x) b.
  Proof. intros H. apply eq_true_iff_eq. rewrite !existsb_eqb. apply H. Qed.
  Lemma same_disjoint a a' b b' : same_set a a' -> same_set b b' -> disjoint_nat a b = disjoint_nat a' b'.
  Proof.
    intros Ha Hb. unfold disjoint_nat. apply eq_true_iff_eq. rewrite !forallb_forall. split; intros H x Hx; specialize (H x); rewrite (same_existsb x b b' Hb) in *; apply H; apply Ha; auto.
  Qed.
  Lemma same_inter a a' b b' : same_set a a' -> same_set b b' -> same_set (inter_nat a b) (inter_nat a' b').
  Proof. intros Ha Hb x. unfold inter_nat. rewrite !filter_In, (same_existsb x b b' Hb), (Ha x). tauto. Qed.

  Lemma same_errors q1 q2 : same_state q1 q2 ->
    match aget eqb q1 (p_errors p1), aget eqb q2 (p_errors p2) with
    | Some a, Some b => same_set a b
    | None, None => True
    | _, _ => False
    end.
  Proof.
    intros (g & A & B). pose proof (can_errors _ _ _ H1 _ _ A) as C. pose proof (can_errors _ _ _ H2 _ _ B) as D.
    destruct (aget eqb q1 (p_errors p1)) as [a|]; destruct (aget eqb q2 (p_errors p2)) as [b|]; auto.
    - intros x. destruct C as [_ C]. destruct D as [_ D]. rewrite C, D. tauto.
    - destruct C as [C1 C2]. destruct a as [|k a]; [congruence|]. apply (D k). apply C2. left; auto.
    - destruct D as [D1 D2]. destruct b as [|k b]; [congruence|]. apply (C k). apply D2. left; auto.
  Qed.

  Definition same_rec (a b : option (nat * list (nat * entry N) * list nat * bool * nat * nat)) : Prop :=
    match a, b with
    | Some (c, st, rc, bk, h, eh), Some (c', st', rc', bk', h', eh') => same_state c c' /\ Forall2 same_entry st st' /\ same_set rc rc' /\ bk = bk' /\ h = h' /\ eh = eh'
    | None, None => True
    | _, _ => False
    end.
  Lemma same_recover eoi rc rc' : same_set rc rc' -> forall st st', Forall2 same_entry st st' -> forall back c c' h eh, same_state c c' ->
    same_rec (recover p1 eoi rc back c h eh st) (recover p2 eoi rc' back c' h eh st').
  Proof.
    intros Hrc st st' Hst. induction Hst as [|[q e] [q' e'] st st' [Hq He] Hst IH]; intros back c c' h eh Hc; cbn [recover].
    - pose proof (same_errors _ _ Hc) as G. destruct (negb eoi || negb back); [|exact I].
      destruct (aget eqb c (p_errors p1)) as [a|]; destruct (aget eqb c' (p_errors p2)) as [b|]; try contradiction; [|exact I].
      pose proof (same_set_nil _ _ Hrc) as G0. rewrite (same_disjoint _ _ _ _ Hrc G).
      destruct rc as [|x rc]; destruct rc' as [|y rc']; try (exfalso; destruct G0 as [G1 G2]; (discriminate (G1 eq_refl) || discriminate (G2 eq_refl))); [simpl; auto 10|].
      destruct (disjoint_nat (y :: rc') b); [exact I|]. cbn [same_rec]. refine (conj _ (conj _ (conj _ (conj _ (conj _ _))))); auto; try (apply same_inter; auto).
    - simpl in He. subst e'. simpl in Hq.
      assert (K : same_rec (match e with ENon _ i | ETok _ i => recover p1 eoi rc true q i eh st | EErr lo _ => recover p1 eoi rc true q h lo st | EEoi => recover p1 eoi rc true q h eh st end)
                    (match e with ENon _ i | ETok _ i => recover p2 eoi rc' true q' i eh st' | EErr lo _ => recover p2 eoi rc' true q' h lo st' | EEoi => recover p2 eoi rc' true q' h eh st' end)).
      { destruct e; apply IH; auto. }
      assert (Hst2 : Forall2 same_entry ((q, e) :: st) ((q', e) :: st')) by (constructor; [split; auto|auto]).
      pose proof (same_errors _ _ Hc) as G. destruct (negb eoi || negb back); [|destruct e; exact K].
      destruct (aget eqb c (p_errors p1)) as [a|]; destruct (aget eqb c' (p_errors p2)) as [b|]; try contradiction; [|destruct e; exact K].
      pose proof (same_set_nil _ _ Hrc) as G0. rewrite (same_disjoint _ _ _ _ Hrc G).
      destruct rc as [|x rc]; destruct rc' as [|y rc']; try (exfalso; destruct G0 as [G1 G2]; (discriminate (G1 eq_refl) || discriminate (G2 eq_refl))); [simpl; auto 10|].
      destruct (disjoint_nat (y :: rc') b); [destruct e; exact K|]. cbn [same_rec]. refine (conj _ (conj _ (conj _ (conj _ (conj _ _))))); auto; try (apply same_inter; auto).
  Qed.

  Lemma same_act q1 q2 t : same_state q1 q2 -> exists d1 d2, act p1 q1 t = Ok d1 /\ act p2 q2 t = Ok d2 /\
    match d1, d2 with
    | Some (Shift a), Some (Shift b) => same_state a b
    | Some (Reduce k), Some (Reduce k') => k = k'
    | Some Accept, Some Accept => True
    | None, None => True
    | _, _ => False
    end.
  Proof.
    intros (g & A & B). destruct (can_action _ _ _ H1 _ _ A) as (r1 & E1 & D1). destruct (can_action _ _ _ H2 _ _ B) as (r2 & E2 & D2).
    specialize (D1 t). specialize (D2 t). exists (aget eqb t r1), (aget eqb t r2). unfold act. rewrite E1, E2. split; [reflexivity|]. split; [reflexivity|].
    pose proof (decides_same _ _ _ _ _ _ _ _ D1 D2) as S. destruct (aget eqb t r1) as [[a|k|]|]; destruct (aget eqb t r2) as [[b|k'|]|]; simpl in *; auto.
    exists (g ++ [TM t]). split; [apply D1|apply D2].
  Qed.
  Lemma same_goto q1 q2 n : same_state q1 q2 ->
    match aget eqb q1 (p_goto p1), aget eqb q2 (p_goto p2) with
    | Some r1, Some r2 => match aget eqb n r1, aget eqb n r2 with Some a, Some b => same_state a b | None, None => True | _, _ => False end
    | Some r1, None => aget eqb n r1 = None
    | None, Some r2 => aget eqb n r2 = None
    | None, None => True
    end.
  Proof.
    intros (g & A & B).
    assert (G1 : state_of p1 (g ++ [NT n]) = match aget eqb q1 (p_goto p1) with Some row => aget eqb n row | None => None end).
    { rewrite state_of_snoc, A. reflexivity. }
    assert (G2 : state_of p2 (g ++ [NT n]) = match aget eqb q2 (p_goto p2) with Some row => aget eqb n row | None => None end).
    { rewrite state_of_snoc, B. reflexivity. }
    assert (C : (exists a, state_of p1 (g ++ [NT n]) = Some a) <-> (exists b, state_of p2 (g ++ [NT n]) = Some b)).
    { rewrite (can_state _ _ _ H1), (can_state _ _ _ H2). tauto. }
    destruct (aget eqb q1 (p_goto p1)) as [r1|]; destruct (aget eqb q2 (p_goto p2)) as [r2|]; auto.
    - destruct (aget eqb n r1) as [a|] eqn:Ea; destruct (aget eqb n r2) as [b|] eqn:Eb; auto.
      + exists (g ++ [NT n]). auto.
      + destruct C as [C _]. destruct C as [b Hb]; [eauto|]. congruence.
      + destruct C as [_ C]. destruct C as [b' Hb]; [eauto|]. congruence.
    - destruct (aget eqb n r1) as [a|] eqn:Ea; auto. destruct C as [C _]. destruct C as [b Hb]; [eauto|]. congruence.
    - destruct (aget eqb n r2) as [a|] eqn:Ea; auto. destruct C as [_ C]. destruct C as [b Hb]; [eauto|]. congruence.
  Qed.

  Lemma same_read s1 s2 : same_ps s1 s2 -> same_ps (ps_read tix s1) (ps_read tix s2).
  Proof.
    intros [A B C D F G]. unfold ps_read. rewrite <- C. destruct (ps_buf s1) eqn:Eb; [|constructor; auto; congruence].
    rewrite <- A, <- B. destruct (ps_iter s1); constructor; simpl; auto.
  Qed.
  Lemma Forall2_firstn {A B} (R : A -> B -> Prop) n l l' : Forall2 R l l' -> Forall2 R (firstn n l) (firstn n l').
  Proof. intros H. revert n. induction H; intros [|n]; simpl; constructor; auto. Qed.
  Lemma Forall2_skipn {A B} (R : A -> B -> Prop) n l l' : Forall2 R l l' -> Forall2 R (skipn n l) (skipn n l').
  Proof. intros H. revert n. induction H; intros [|n]; simpl; auto. Qed.
  Lemma Forall2_rev {A B} (R : A -> B -> Prop) l l' : Forall2 R l l' -> Forall2 R (rev l) (rev l').
  Proof. induction 1; simpl; auto. apply Forall2_app; auto. Qed.

  Definition same_turn (a b : pstate N T + res (outcome N E * list T)) : Prop :=
    match a, b with inl s1, inl s2 => same_ps s1 s2 | inr r1, inr r2 => r1 = r2 | _, _ => False end.

  Lemma same_step s1 s2 : same_ps s1 s2 ->
    step_call tix P1 s1 = step_call tix P2 s2 /\ step_error tix P1 s1 = step_error tix P2 s2 /\ same_turn (parse_step tix P1 s1) (parse_step tix P2 s2).
  Proof.
    intros Hs. apply same_read in Hs. unfold step_call, step_error, parse_step. cbv zeta. unfold P1, P2. cbn [pr_tab pr_gens].
    set (t1 := ps_read tix s1) in *. set (t2 := ps_read tix s2) in *. clearbody t1 t2. destruct Hs as [A B C D F G].
    rewrite <- C. destruct (ps_buf t1) as [|[t i] buf]; [simpl; auto|].
    destruct (same_act _ _ t D) as (d1 & d2 & -> & -> & Hd).
    destruct d1 as [[a|k|]|]; destruct d2 as [[b|k'|]|]; try contradiction.
    - (* shift *)
      split; [reflexivity|]. split; [reflexivity|]. destruct t; simpl; auto; (constructor; simpl; auto; [constructor; [split; auto|auto]]).
    - (* reduce *)
      subst k'. rewrite (can_rules _ _ _ H1), (can_rules _ _ _ H2). destruct (nth_error rs k) as [r|]; [|simpl; auto].
      rewrite <- (Forall2_len _ _ _ F). destruct (length (ps_stack t1) <? length (r_rhs r)); [simpl; auto|].
      pose proof (Forall2_rev _ _ _ (Forall2_firstn _ (length (r_rhs r)) _ _ F)) as Hpop. pose proof (Forall2_skipn _ (length (r_rhs r)) _ _ F) as Hrest.
      set (pop1 := rev (firstn (length (r_rhs r)) (ps_stack t1))) in *. set (pop2 := rev (firstn (length (r_rhs r)) (ps_stack t2))) in *.
      assert (Hmap : map snd pop1 = map snd pop2). { clear - Hpop. induction Hpop as [|x y l l' [_ H] _ IH]; simpl; auto. congruence. }
      rewrite <- Hmap, <- B. destruct (reduce_args (ps_syms t1) 0 (map snd pop1)) as [args| |]; [|simpl; auto|simpl; auto].
      split; [reflexivity|]. split; [reflexivity|]. destruct (nth_error gs k) as [gen|]; [|reflexivity]. destruct (gen args) as [v|e|]; [|simpl; rewrite A; reflexivity|reflexivity].
      assert (Hcur : same_state (match pop1 with [] => ps_state t1 | (q, _) :: _ => q end) (match pop2 with [] => ps_state t2 | (q, _) :: _ => q end)).
      { destruct Hpop as [|[x e] [y e'] l l' [Hx _] _]; auto. }
      set (c1 := match pop1 with [] => _ | _ => _ end) in *. set (c2 := match pop2 with [] => _ | _ => _ end) in *. clearbody c1 c2.
      pose proof (same_goto _ _ (r_lhs r) Hcur) as Hgo.
      destruct (aget eqb c1 (p_goto p1)) as [r1|]; destruct (aget eqb c2 (p_goto p2)) as [r2|]; [| | |reflexivity].
      + destruct (aget eqb (r_lhs r) r1) as [q|]; destruct (aget eqb (r_lhs r) r2) as [q'|]; try contradiction; [|reflexivity].
        simpl. constructor; simpl; auto.
        * constructor; [split; auto|auto].
        * rewrite (same_existsb k _ _ G). destruct (existsb (Nat.eqb k) (ps_rec t2)); [intros x; tauto|auto].
      + rewrite Hgo. reflexivity.
      + rewrite Hgo. reflexivity.
    - (* accept *)
      split; [reflexivity|]. split; [reflexivity|]. destruct F as [|[q e] [q' e'] st st' [_ He] F]; [reflexivity|]. simpl in He. subst e'. rewrite A. destruct e; reflexivity.
    - (* recovery *)
      split; [reflexivity|]. split; [reflexivity|].
      pose proof (same_recover (match t with TEoi => true | _ => false end) _ _ G _ _ F false _ _ i i D) as Hr. unfold same_rec in Hr.
      destruct (recover p1 _ _ _ _ _ _ _) as [[[[[[c st] rc] bk] h] eh]|]; destruct (recover p2 _ _ _ _ _ _ _) as [[[[[[c' st'] rc'] bk'] h'] eh']|]; try contradiction; [|simpl; rewrite A; reflexivity].
      destruct Hr as (R1 & R2 & R3 & <- & <- & <-). rewrite <- B. destruct (put_back tix (ps_syms t1) h i) as [pb| |]; [|reflexivity|reflexivity].
      destruct (same_act _ _ TErr R1) as (d1 & d2 & -> & -> & Hd2). destruct d1 as [[a|k|]|]; destruct d2 as [[b|k'|]|]; try contradiction; try reflexivity.
      simpl. constructor; simpl; auto. constructor; [split; auto|auto].
  Qed.

  Lemma same_init w : same_ps (ps_init P1 w) (ps_init P2 w).
  Proof. constructor; simpl; auto; [exists []; auto|intros x; tauto]. Qed.
  Lemma same_loop fuel : forall s1 s2, same_ps s1 s2 -> loop (parse_step tix P1) fuel s1 = loop (parse_step tix P2) fuel s2 /\
    calls tix P1 fuel s1 = calls tix P2 fuel s2 /\ errors tix P1 fuel s1 = errors tix P2 fuel s2.
  Proof.
    induction fuel as [|fuel IH]; intros s1 s2 Hs; [simpl; auto|]. cbn [loop calls errors]. destruct (same_step _ _ Hs) as (A & B & C). rewrite A, B.
    unfold same_turn in C. destruct (parse_step tix P1 s1); destruct (parse_step tix P2 s2); try contradiction; [|subst; auto].
    destruct (IH _ _ C) as (-> & -> & ->). auto.
  Qed.
End Hash.
