(** * Parsers of the same grammar under another numbering of the symbols behave alike *)
From Coq Require Import List Arith Lia Bool Sorted Permutation.
From Verif Require Import Lib Grammar LrModel LrSpec LrSets LrStates LrNew LrTop LrMono GramRename ParseModel Trees ParseSpec ParseInv ParseComplete GramFacts ParseTerm ParseTop ParseMore ParseHash GenProofs GenTop NumSpec.
Import ListNotations.

Section Num.
  Context {N T E : Type} (tix tix' : T -> nat).
  Variables f h : nat -> nat.
  Hypothesis Hf : forall x y, f x = f y -> x = y.
  Hypothesis Hh : forall x y, h x = h y -> x = y.
  Variables (rs : list rule) (sr : nat) (p1 p2 : lr_parser) (gs : list (reducer N T E)).
  Let rs' := map (rrule f h) rs.
  Hypothesis H1 : canonical rs sr p1.
  Hypothesis H2 : canonical rs' sr p2.
  (** the tokens of the grammar are renamed, the others have no name in the new grammar either *)
  Hypothesis Hin : forall x, occurs rs (TSym (tix x)) -> tix' x = f (tix x).
  Hypothesis Hout : forall x t, occurs rs (TSym t) -> tix' x = f t -> tix x = t.
  Let P1 := mk_lr1 p1 gs.
  Let P2 := mk_lr1 p2 gs.

  Inductive tr : term -> term -> Prop :=
  | tr_tok x : tr (TSym (tix x)) (TSym (tix' x))
  | tr_eoi : tr TEoi TEoi
  | tr_err : tr TErr TErr.
  Inductive er : entry N -> entry N -> Prop :=
  | er_non v i : er (ENon v i) (ENon v i)
  | er_tok t t' i : er (ETok t i) (ETok t' i)
  | er_err lo hi : er (EErr lo hi) (EErr lo hi)
  | er_eoi : er EEoi EEoi.

  (** states reached by the same string *)
  Definition num_state (q1 q2 : nat) : Prop := exists g, state_of p1 g = Some q1 /\ state_of p2 (map (rsym f h) g) = Some q2.
  Definition num_entry (a b : nat * entry N) : Prop := num_state (fst a) (fst b) /\ er (snd a) (snd b).
  Definition num_tok (a b : term * nat) : Prop := tr (fst a) (fst b) /\ snd a = snd b.
  Record num_ps (s1 s2 : pstate N T) : Prop := {
    np_iter : ps_iter s1 = ps_iter s2;
    np_syms : ps_syms s1 = ps_syms s2;
    np_buf : Forall2 num_tok (ps_buf s1) (ps_buf s2);
    np_state : num_state (ps_state s1) (ps_state s2);
    np_stack : Forall2 num_entry (ps_stack s1) (ps_stack s2);
    np_rec : same_set (ps_rec s1) (ps_rec s2) }.

  Lemma num_errors q1 q2 : num_state q1 q2 ->
    match aget eqb q1 (p_errors p1), aget eqb q2 (p_errors p2) with
    | Some a, Some b => same_set a b
    | None, None => True
    | _, _ => False
    end.
  Proof.
    intros (g & A & B). pose proof (can_errors _ _ _ H1 _ _ A) as C. pose proof (can_errors _ _ _ H2 _ _ B) as D.
    assert (Hw : forall k, wants_error rs' sr (map (rsym f h) g) k <-> wants_error rs sr g k) by (intros; apply wants_error_ren; auto).
    destruct (aget eqb q1 (p_errors p1)) as [a|]; destruct (aget eqb q2 (p_errors p2)) as [b|]; auto.
    - intros x. destruct C as [_ C]. destruct D as [_ D]. rewrite C, D, Hw. tauto.
    - destruct C as [C1 C2]. destruct a as [|k a]; [congruence|]. apply (D k). apply Hw. apply C2. left; auto.
    - destruct D as [D1 D2]. destruct b as [|k b]; [congruence|]. apply (C k). apply Hw. apply D2. left; auto.
  Qed.

  Definition num_rec (a b : option (nat * list (nat * entry N) * list nat * bool * nat * nat)) : Prop :=
    match a, b with
    | Some (c, st, rc, bk, h, eh), Some (c', st', rc', bk', h', eh') => num_state c c' /\ Forall2 num_entry st st' /\ same_set rc rc' /\ bk = bk' /\ h = h' /\ eh = eh'
    | None, None => True
    | _, _ => False
    end.
  Lemma num_recover eoi rc rc' : same_set rc rc' -> forall st st', Forall2 num_entry st st' -> forall back c c' hd eh, num_state c c' ->
    num_rec (recover p1 eoi rc back c hd eh st) (recover p2 eoi rc' back c' hd eh st').
  Proof.
    intros Hrc st st' Hst. induction Hst as [|[q e] [q' e'] st st' [Hq He] Hst IH]; intros back c c' hd eh Hc; cbn [recover].
    - pose proof (num_errors _ _ Hc) as G. destruct (negb eoi || negb back); [|exact I].
      destruct (aget eqb c (p_errors p1)) as [a|]; destruct (aget eqb c' (p_errors p2)) as [b|]; try contradiction; [|exact I].
      pose proof (same_set_nil _ _ Hrc) as G0. rewrite (same_disjoint _ _ _ _ Hrc G).
      destruct rc as [|x rc]; destruct rc' as [|y rc']; try (exfalso; destruct G0 as [G1 G2]; (discriminate (G1 eq_refl) || discriminate (G2 eq_refl))); [simpl; auto 10|].
      destruct (disjoint_nat (y :: rc') b); [exact I|]. cbn [num_rec]. refine (conj _ (conj _ (conj _ (conj _ (conj _ _))))); auto; try (apply same_inter; auto).
    - cbn [fst snd] in *.
      assert (K : num_rec (match e with ENon _ i | ETok _ i => recover p1 eoi rc true q i eh st | EErr lo _ => recover p1 eoi rc true q hd lo st | EEoi => recover p1 eoi rc true q hd eh st end)
                    (match e' with ENon _ i | ETok _ i => recover p2 eoi rc' true q' i eh st' | EErr lo _ => recover p2 eoi rc' true q' hd lo st' | EEoi => recover p2 eoi rc' true q' hd eh st' end)).
      { destruct He; apply IH; auto. }
      assert (Hst2 : Forall2 num_entry ((q, e) :: st) ((q', e') :: st')) by (constructor; [split; auto|auto]).
      assert (K' : num_rec (match e with ENon _ i => recover p1 eoi rc true q i eh st | ETok _ i => recover p1 eoi rc true q i eh st | EErr lo _ => recover p1 eoi rc true q hd lo st | EEoi => recover p1 eoi rc true q hd eh st end)
                    (match e' with ENon _ i => recover p2 eoi rc' true q' i eh st' | ETok _ i => recover p2 eoi rc' true q' i eh st' | EErr lo _ => recover p2 eoi rc' true q' hd lo st' | EEoi => recover p2 eoi rc' true q' hd eh st' end)).
      { destruct He; exact K. } clear K.
      pose proof (num_errors _ _ Hc) as G. destruct (negb eoi || negb back); [|exact K'].
      destruct (aget eqb c (p_errors p1)) as [a|]; destruct (aget eqb c' (p_errors p2)) as [b|]; try contradiction; [|exact K'].
      pose proof (same_set_nil _ _ Hrc) as G0. rewrite (same_disjoint _ _ _ _ Hrc G).
      destruct rc as [|x rc]; destruct rc' as [|y rc']; try (exfalso; destruct G0 as [G1 G2]; (discriminate (G1 eq_refl) || discriminate (G2 eq_refl))); [simpl; auto 10|].
      destruct (disjoint_nat (y :: rc') b); [exact K'|]. cbn [num_rec]. refine (conj _ (conj _ (conj _ (conj _ (conj _ _))))); auto; try (apply same_inter; auto).
  Qed.

  (** the two tables decide alike *)
  Lemma decides_ren g t d d' : (forall q1 q2, d = Some (Shift q1) -> d' = Some (Shift q2) -> True) ->
    decides rs sr p1 g t d -> decides rs' sr p2 (map (rsym f h) g) (rterm f t) d' ->
    match d, d' with
    | Some (Shift a), Some (Shift b) => num_state a b
    | Some (Reduce k), Some (Reduce k') => k = k'
    | Some Accept, Some Accept => True
    | None, None => True
    | _, _ => False
    end.
  Proof.
    intros _ D D'.
    assert (Hw : wants rs' sr (map (rsym f h) g) (TM (rterm f t)) <-> wants rs sr g (TM t)) by (apply (wants_ren f h Hf Hh rs sr g (TM t))).
    assert (Hc : forall k, complete rs' sr (map (rsym f h) g) k (rterm f t) <-> complete rs sr g k t) by (intros; apply complete_ren; auto).
    assert (Ha : accepting rs' sr (map (rsym f h) g) <-> accepting rs sr g) by (apply (complete_ren f h Hf Hh rs sr g sr TEoi)).
    assert (Ht : rterm f t = TEoi <-> t = TEoi) by (destruct t; simpl; split; congruence).
    destruct d as [[q|k|]|]; destruct d' as [[q'|k'|]|]; simpl in D, D'; rewrite ?Hw, ?Ht, ?Ha, ?Hc in D'; auto; try (exfalso; tauto).
    - exists (g ++ [TM t]). rewrite map_app. split; [apply D|apply D'].
    - destruct D as (_ & _ & K1 & K2 & K3). destruct D' as (_ & _ & L1 & L2 & L3). apply Nat.le_antisymm; [apply K3; auto|apply L3; auto; apply Hc; auto].
    - destruct D as (_ & _ & K1 & K2 & K3). destruct D' as (_ & _ & L3). apply (L3 k K1). apply Hc. auto.
    - destruct D as (_ & _ & K3). destruct D' as (_ & _ & L1 & L2 & L3). apply (K3 k' L1). auto.
  Qed.
  Lemma num_act q1 q2 t t' : num_state q1 q2 -> tr t t' -> exists d1 d2, act p1 q1 t = Ok d1 /\ act p2 q2 t' = Ok d2 /\
    match d1, d2 with
    | Some (Shift a), Some (Shift b) => num_state a b
    | Some (Reduce k), Some (Reduce k') => k = k'
    | Some Accept, Some Accept => True
    | None, None => True
    | _, _ => False
    end.
  Proof.
    intros (g & A & B) Ht. destruct (can_action _ _ _ H1 _ _ A) as (r1 & E1 & D1). destruct (can_action _ _ _ H2 _ _ B) as (r2 & E2 & D2).
    exists (aget eqb t r1), (aget eqb t' r2). unfold act. rewrite E1, E2. split; [reflexivity|]. split; [reflexivity|].
    assert (Hocc : forall u, occurs rs' (TSym u) -> exists v, u = f v /\ occurs rs (TSym v)).
    { intros u (r & Hr & Hu). unfold rs' in Hr. apply in_map_iff in Hr as (r0 & <- & Hr0). unfold rrule in Hu. cbn [r_rhs] in Hu. apply in_map_iff in Hu as (X & EX & HX).
      destruct X as [n|[v| |]]; try discriminate. injection EX as <-. exists v. split; auto. exists r0. auto. }
    assert (K : (exists u, t = u /\ t' = rterm f u) \/ (aget eqb t r1 = None /\ aget eqb t' r2 = None)).
    { destruct Ht as [x| |]; [|left; exists TEoi; auto|left; exists TErr; auto].
      destruct (aget eqb (TSym (tix x)) r1) as [a|] eqn:Ea.
      { left. destruct (row_keys _ _ _ _ _ _ _ _ H1 A E1 Ea) as [H|H]; [discriminate|]. exists (TSym (tix x)). split; auto. simpl. rewrite (Hin _ H). auto. }
      destruct (aget eqb (TSym (tix' x)) r2) as [a|] eqn:Eb; [|right; auto].
      destruct (row_keys _ _ _ _ _ _ _ _ H2 B E2 Eb) as [H|H]; [discriminate|]. destruct (Hocc _ H) as (v & Ev & Hv). pose proof (Hout _ _ Hv Ev) as <-.
      left. exists (TSym (tix x)). split; auto. simpl. rewrite Ev. auto. }
    destruct K as [(u & -> & ->)|[-> ->]]; [|exact I]. eapply decides_ren; [|apply D1|apply D2]. auto.
  Qed.
  Lemma num_goto q1 q2 n : num_state q1 q2 ->
    match aget eqb q1 (p_goto p1), aget eqb q2 (p_goto p2) with
    | Some r1, Some r2 => match aget eqb n r1, aget eqb (h n) r2 with Some a, Some b => num_state a b | None, None => True | _, _ => False end
    | Some r1, None => aget eqb n r1 = None
    | None, Some r2 => aget eqb (h n) r2 = None
    | None, None => True
    end.
  Proof.
    intros (g & A & B).
    assert (G1 : state_of p1 (g ++ [NT n]) = match aget eqb q1 (p_goto p1) with Some row => aget eqb n row | None => None end).
    { rewrite state_of_snoc, A. reflexivity. }
    assert (G2 : state_of p2 (map (rsym f h) (g ++ [NT n])) = match aget eqb q2 (p_goto p2) with Some row => aget eqb (h n) row | None => None end).
    { rewrite map_app. cbn [map rsym]. rewrite state_of_snoc, B. reflexivity. }
    assert (C : (exists a, state_of p1 (g ++ [NT n]) = Some a) <-> (exists b, state_of p2 (map (rsym f h) (g ++ [NT n])) = Some b)).
    { rewrite (can_state _ _ _ H1), (can_state _ _ _ H2). split; intros [it Hv].
      - eexists. apply valid_ren; eauto.
      - destruct (valid_image f h Hf Hh rs sr _ _ Hv) as (it0 & _ & Hv0). eauto. }
    destruct (aget eqb q1 (p_goto p1)) as [r1|]; destruct (aget eqb q2 (p_goto p2)) as [r2|]; auto.
    - destruct (aget eqb n r1) as [a|] eqn:Ea; destruct (aget eqb (h n) r2) as [b|] eqn:Eb; auto.
      + exists (g ++ [NT n]). auto.
      + destruct C as [C _]. destruct C as [b Hb]; [eauto|]. congruence.
      + destruct C as [_ C]. destruct C as [b' Hb]; [eauto|]. congruence.
    - destruct (aget eqb n r1) as [a|] eqn:Ea; auto. destruct C as [C _]. destruct C as [b Hb]; [eauto|]. congruence.
    - destruct (aget eqb (h n) r2) as [a|] eqn:Ea; auto. destruct C as [_ C]. destruct C as [b Hb]; [eauto|]. congruence.
  Qed.

  Lemma num_read s1 s2 : num_ps s1 s2 -> num_ps (ps_read tix s1) (ps_read tix' s2).
  Proof.
    intros Hs. pose proof Hs as [A B C D F G]. unfold ps_read.
    destruct (ps_buf s1) as [|x l] eqn:E1; destruct (ps_buf s2) as [|y l'] eqn:E2; inversion C; subst; auto.
    rewrite <- A, <- B. destruct (ps_iter s1) as [|x it]; constructor; simpl; auto; constructor; auto; split; simpl; auto; constructor.
  Qed.
  Lemma num_put_back l hd i : match put_back tix l hd i, put_back tix' l hd i with
    | Ok a, Ok b => Forall2 num_tok a b | Panic, Panic => True | OutOfFuel, OutOfFuel => True | _, _ => False end.
  Proof.
    unfold put_back. induction (seq hd (i - hd)) as [|j js IH]; cbn [mapM]; [constructor|].
    destruct (nth_error l j) as [x|]; cbn [of_opt bind]; [|exact I].
    destruct (mapM _ js) as [a| |]; destruct (mapM _ js) as [b| |]; cbn [bind]; try contradiction; auto.
    constructor; auto. split; simpl; auto. constructor.
  Qed.

  Definition num_turn (a b : pstate N T + res (outcome N E * list T)) : Prop :=
    match a, b with inl s1, inl s2 => num_ps s1 s2 | inr r1, inr r2 => r1 = r2 | _, _ => False end.
  Lemma er_first l l' d : Forall2 er l l' -> first_index l d = first_index l' d.
  Proof. induction 1 as [|x y l l' H _ IH]; auto. destruct H; simpl; auto. Qed.
  Lemma er_args (all : list T) l l' : Forall2 er l l' -> forall base, reduce_args all base l = reduce_args all base l'.
  Proof. induction 1 as [|x y l l' H _ IH]; intros base; auto. destruct H; cbn [reduce_args]; try rewrite IH; auto. Qed.

  Lemma num_step s1 s2 : num_ps s1 s2 ->
    step_call tix P1 s1 = step_call tix' P2 s2 /\ option_map snd (step_error tix P1 s1) = option_map snd (step_error tix' P2 s2) /\ num_turn (parse_step tix P1 s1) (parse_step tix' P2 s2).
  Proof.
    intros Hs. apply num_read in Hs. unfold step_call, step_error, parse_step. cbv zeta. unfold P1, P2. cbn [pr_tab pr_gens].
    set (t1 := ps_read tix s1) in *. set (t2 := ps_read tix' s2) in *. clearbody t1 t2. destruct Hs as [A B C D F G].
    destruct (ps_buf t1) as [|[t i] buf] eqn:Eb1; destruct (ps_buf t2) as [|[t' i'] buf'] eqn:Eb2; inversion C as [|x1 y1 l1 l1' [Ht Hi] Hbuf]; subst; [simpl; auto|]. cbn [fst snd] in Ht, Hi. subst i'.
    destruct (num_act _ _ t t' D Ht) as (d1 & d2 & -> & -> & Hd).
    destruct d1 as [[a|k|]|]; destruct d2 as [[b|k'|]|]; try contradiction.
    - (* shift *)
      split; [reflexivity|]. split; [reflexivity|]. destruct Ht; simpl; auto; (constructor; simpl; auto; [constructor; [split; auto; constructor|auto]]).
    - (* reduce *)
      subst k'. rewrite (can_rules _ _ _ H1), (can_rules _ _ _ H2). unfold rs'. rewrite nth_ren. destruct (nth_error rs k) as [r|]; [|simpl; auto].
      assert (El : length (r_rhs (rrule f h r)) = length (r_rhs r)) by (unfold rrule; cbn [r_rhs]; apply map_length). rewrite El.
      rewrite <- (Forall2_len _ _ _ F). destruct (length (ps_stack t1) <? length (r_rhs r)); [simpl; auto|].
      pose proof (Forall2_rev _ _ _ (Forall2_firstn _ (length (r_rhs r)) _ _ F)) as Hpop. pose proof (Forall2_skipn _ (length (r_rhs r)) _ _ F) as Hrest.
      set (pop1 := rev (firstn (length (r_rhs r)) (ps_stack t1))) in *. set (pop2 := rev (firstn (length (r_rhs r)) (ps_stack t2))) in *.
      assert (Hmap : Forall2 er (map snd pop1) (map snd pop2)). { clear - Hpop. induction Hpop as [|x y l l' [_ H] _ IH]; simpl; auto. }
      rewrite <- (er_args (ps_syms t2) _ _ Hmap), <- (er_first _ _ (length (ps_syms t2)) Hmap), <- B. destruct (reduce_args (ps_syms t1) 0 (map snd pop1)) as [args| |]; [|simpl; auto|simpl; auto].
      split; [reflexivity|]. split; [reflexivity|]. destruct (nth_error gs k) as [gen|]; [|reflexivity]. destruct (gen args) as [v|e|]; [|simpl; rewrite A; reflexivity|reflexivity].
      assert (Hcur : num_state (match pop1 with [] => ps_state t1 | (q, _) :: _ => q end) (match pop2 with [] => ps_state t2 | (q, _) :: _ => q end)).
      { destruct Hpop as [|[x e] [y e'] l l' [Hx _] _]; auto. }
      set (c1 := match pop1 with [] => _ | _ => _ end) in *. set (c2 := match pop2 with [] => _ | _ => _ end) in *. clearbody c1 c2.
      pose proof (num_goto _ _ (r_lhs r) Hcur) as Hgo. cbn [rrule r_lhs].
      destruct (aget eqb c1 (p_goto p1)) as [r1|]; destruct (aget eqb c2 (p_goto p2)) as [r2|]; [| | |reflexivity].
      + destruct (aget eqb (r_lhs r) r1) as [q|]; destruct (aget eqb (h (r_lhs r)) r2) as [q'|]; try contradiction; [|reflexivity].
        simpl. constructor; simpl; auto.
        * constructor; [split; auto; constructor|auto].
        * rewrite (same_existsb k _ _ G). destruct (existsb (Nat.eqb k) (ps_rec t2)); [intros x; tauto|auto].
      + rewrite Hgo. reflexivity.
      + rewrite Hgo. reflexivity.
    - (* accept *)
      split; [reflexivity|]. split; [reflexivity|]. destruct F as [|[q e] [q' e'] st st' [_ He] F]; [reflexivity|]. cbn [snd] in He. rewrite A. destruct He; reflexivity.
    - (* recovery *)
      split; [reflexivity|]. split; [reflexivity|].
      assert (Ee : (match t' with TEoi => true | _ => false end) = (match t with TEoi => true | _ => false end)) by (destruct Ht; auto). rewrite Ee.
      pose proof (num_recover (match t with TEoi => true | _ => false end) _ _ G _ _ F false _ _ i i D) as Hr. unfold num_rec in Hr.
      destruct (recover p1 _ _ _ _ _ _ _) as [[[[[[c st] rc] bk] hd] eh]|]; destruct (recover p2 _ _ _ _ _ _ _) as [[[[[[c' st'] rc'] bk'] hd'] eh']|]; try contradiction; [|simpl; rewrite A; reflexivity].
      destruct Hr as (R1 & R2 & R3 & <- & <- & <-). rewrite <- B. pose proof (num_put_back (ps_syms t1) hd i) as Hpb.
      destruct (put_back tix (ps_syms t1) hd i) as [pb| |]; destruct (put_back tix' (ps_syms t1) hd i) as [pb'| |]; try contradiction; [|reflexivity|reflexivity].
      destruct (num_act _ _ TErr TErr R1 tr_err) as (d1 & d2 & -> & -> & Hd2). destruct d1 as [[a|k|]|]; destruct d2 as [[b|k'|]|]; try contradiction; try reflexivity.
      simpl. constructor; simpl; auto; [|constructor; [split; auto; constructor|auto]].
      assert (Hall : Forall2 num_tok (pb ++ ps_buf t1) (pb' ++ ps_buf t2)) by (apply Forall2_app; auto; rewrite Eb1, Eb2; auto).
      rewrite Eb1, Eb2 in *. destruct bk; auto. destruct Hall; simpl; auto.
  Qed.

  Lemma num_init w : num_ps (ps_init P1 w) (ps_init P2 w).
  Proof. constructor; simpl; auto; [exists []; auto|intros x; tauto]. Qed.
  Lemma num_loop fuel : forall s1 s2, num_ps s1 s2 -> loop (parse_step tix P1) fuel s1 = loop (parse_step tix' P2) fuel s2 /\
    calls tix P1 fuel s1 = calls tix' P2 fuel s2 /\ map snd (errors tix P1 fuel s1) = map snd (errors tix' P2 fuel s2).
  Proof.
    induction fuel as [|fuel IH]; intros s1 s2 Hs; [simpl; auto|]. cbn [loop calls errors]. destruct (num_step _ _ Hs) as (A & B & C). rewrite A, !map_app.
    assert (B' : map snd (match step_error tix P1 s1 with Some c => [c] | None => [] end) = map snd (match step_error tix' P2 s2 with Some c => [c] | None => [] end)).
    { destruct (step_error tix P1 s1); destruct (step_error tix' P2 s2); simpl in *; congruence. }
    rewrite B'. unfold num_turn in C. destruct (parse_step tix P1 s1); destruct (parse_step tix' P2 s2); try contradiction; [|subst; auto].
    destruct (IH _ _ C) as (-> & -> & ->). auto.
  Qed.
End Num.

(** ** The warnings of a renamed grammar *)
Section Warns.
  Variables f h : nat -> nat.
  Hypothesis Hf : forall x y, f x = f y -> x = y.
  Hypothesis Hh : forall x y, h x = h y -> x = y.
  Variables (rs : list rule) (sr : nat).
  Let rs' := map (rrule f h) rs.
  Definition rstate (st : list item) : list item := to_set (map (ritem f) st).
  Definition rwarn (w : warning) : warning :=
    match w with WShiftReduce st sh k => WShiftReduce (rstate st) (rstate sh) k | WReduceReduce st a b => WReduceReduce (rstate st) a b end.
  Lemma shape_rwarn w : shape (rwarn w) = shape w. Proof. destruct w; reflexivity. Qed.
  Lemma rstate_In st it' : In it' (rstate st) <-> exists it, it' = ritem f it /\ In it st.
  Proof. unfold rstate. rewrite In_to_set, in_map_iff. split; intros (it & A & B); eauto. Qed.
  Lemma rstate_inj a b : sorted a -> sorted b -> rstate a = rstate b -> a = b.
  Proof.
    intros Ha Hb E. apply sorted_ext; auto. intros x. split; intros H.
    - assert (G : In (ritem f x) (rstate b)) by (rewrite <- E; apply rstate_In; eauto). apply rstate_In in G as (y & Ey & G). apply (ritem_inj f Hf) in Ey. subst; auto.
    - assert (G : In (ritem f x) (rstate a)) by (rewrite E; apply rstate_In; eauto). apply rstate_In in G as (y & Ey & G). apply (ritem_inj f Hf) in Ey. subst; auto.
  Qed.
  Lemma items_ren g st : items_of rs sr g st -> items_of rs' sr (map (rsym f h) g) (rstate st).
  Proof.
    intros [A B]. split; [apply sorted_to_set|]. intros it'. rewrite rstate_In. split.
    - intros (it & -> & H). apply valid_ren; auto. apply B; auto.
    - intros H. apply (valid_image f h Hf Hh) in H as (it & -> & H). exists it. split; auto. apply B; auto.
  Qed.
  Lemma items_unren g st' : items_of rs' sr (map (rsym f h) g) st' -> exists st, st' = rstate st /\ items_of rs sr g st.
  Proof.
    intros [A B].
    assert (H : exists l, forall it, In it l <-> valid rs sr g it).
    { assert (K : forall l', (forall it', In it' l' -> valid rs' sr (map (rsym f h) g) it') -> exists l, l' = map (ritem f) l).
      { induction l' as [|x l' IH]; intros H; [exists []; auto|]. destruct IH as [l ->]; [intros; apply H; right; auto|].
        destruct (valid_image f h Hf Hh rs sr g x (H x (or_introl eq_refl))) as (it & -> & _). exists (it :: l). auto. }
      destruct (K st') as [l El]; [apply B|]. exists l. intros it. assert (V : valid rs' sr (map (rsym f h) g) (ritem f it) <-> valid rs sr g it) by (apply valid_ren_iff; auto). rewrite <- V, <- B, El, in_map_iff. split; [eauto|].
      intros (y & Ey & Hy). apply (ritem_inj f Hf) in Ey. subst; auto. }
    destruct H as [l Hl]. assert (I : items_of rs sr g (to_set l)) by (split; [apply sorted_to_set|intros it; rewrite In_to_set; auto]).
    exists (to_set l). split; auto. destruct (items_ren _ _ I) as [C D]. apply sorted_ext; auto. intros x. rewrite B, D. tauto.
  Qed.
  Lemma conflict_ren w t : conflict_at rs sr w t -> conflict_at rs' sr (rwarn w) (rterm f t).
  Proof.
    intros (g & k & Hk & Hc & Hw). exists (map (rsym f h) g), k. split; auto. split; [apply complete_ren; auto|].
    destruct w as [st sh k'|st k0 k']; simpl.
    - destruct Hw as (-> & A & B & C). split; auto. split; [apply (wants_ren f h Hf Hh rs sr g (TM t)); auto|]. split; [apply items_ren; auto|].
      apply items_ren in C. rewrite map_app in C. exact C.
    - destruct Hw as (-> & A & B & C & D & F & G). split; auto. split; [intros X; apply A; apply (wants_ren f h Hf Hh rs sr g (TM t)); auto|]. split; [apply items_ren; auto|]. split; auto. split; auto.
      split; [apply complete_ren; auto|]. intros k1 Hk1 Hc1. apply G; auto. apply (complete_ren f h Hf Hh rs sr g k1 t). auto.
  Qed.
  Lemma conflict_unren w' t' : conflict_at rs' sr w' t' -> exists w t, w' = rwarn w /\ t' = rterm f t /\ conflict_at rs sr w t.
  Proof.
    intros (g' & k & Hk & Hc & Hw).
    assert (Hg : exists g, g' = map (rsym f h) g).
    { destruct Hc as (r & Hr & Hv). destruct (valid_unren f h Hh rs sr _ _ Hv) as (g & it & E & _). eauto. }
    destruct Hg as [g ->]. destruct (complete_image f h Hf Hh _ _ _ _ _ Hc) as [t ->]. apply complete_ren in Hc; auto.
    destruct w' as [st' sh' k'|st' k0 k'].
    - destruct Hw as (-> & A & B & C). destruct (items_unren _ _ B) as (st & -> & B'). change [TM (rterm f t)] with (map (rsym f h) [TM t]) in C. rewrite <- map_app in C. destruct (items_unren _ _ C) as (sh & -> & C').
      exists (WShiftReduce st sh k), t. split; auto. split; auto. exists g, k. split; auto. split; auto. split; auto. split; auto. apply (wants_ren f h Hf Hh rs sr g (TM t)); auto.
    - destruct Hw as (-> & A & B & C & D & F & G). destruct (items_unren _ _ B) as (st & -> & B').
      exists (WReduceReduce st k0 k), t. split; auto. split; auto. exists g, k. split; auto. split; auto. split; auto.
      split; [intros X; apply A; apply (wants_ren f h Hf Hh rs sr g (TM t)); auto|]. split; auto. split; auto. split; auto. split; [apply (complete_ren f h Hf Hh rs sr g k0 t); auto|].
      intros k1 Hk1 Hc1. apply G; auto. apply complete_ren; auto.
  Qed.
  Lemma conflict_sorted w t : conflict_at rs sr w t -> match w with WShiftReduce st sh _ => sorted st /\ sorted sh | WReduceReduce st _ _ => sorted st end.
  Proof.
    intros (g & k & _ & _ & Hw). destruct w as [st sh k'|st k0 k'].
    - destruct Hw as (_ & _ & [A _] & [B _]). auto.
    - destruct Hw as (_ & _ & [A _] & _). auto.
  Qed.
  Lemma warns_ren c c' : NoDup c -> NoDup c' -> (forall x t, In (x, t) c <-> conflict_at rs sr x t) -> (forall x t, In (x, t) c' <-> conflict_at rs' sr x t) ->
    Permutation (map shape (map fst c)) (map shape (map fst c')).
  Proof.
    intros N1 N2 C1 C2. set (ren := fun wt : warning * term => (rwarn (fst wt), rterm f (snd wt))).
    assert (Hp : Permutation (map ren c) c').
    { apply NoDup_Permutation; auto.
      - assert (K : forall l, NoDup l -> (forall wt, In wt l -> In wt c) -> NoDup (map ren l)).
        { induction 1 as [|x l Hx Hl IH]; intros Hc; simpl; constructor; [|apply IH; intros; apply Hc; right; auto].
          intros H. apply in_map_iff in H as (y & Ey & Hy). apply Hx. replace x with y; auto.
          destruct x as [w t], y as [w' t']. unfold ren in Ey. cbn [fst snd] in Ey. injection Ey as Ew Et. apply (rterm_inj f Hf) in Et. subst t'. f_equal.
          assert (I1 : In (w, t) c) by (apply Hc; left; auto). assert (I2 : In (w', t) c) by (apply Hc; right; auto). apply C1, conflict_sorted in I1. apply C1, conflict_sorted in I2.
          destruct w, w'; simpl in Ew; try discriminate; injection Ew as; f_equal; try congruence; apply rstate_inj; try tauto; congruence. }
        apply K; auto.
      - intros [w' t']. rewrite C2, in_map_iff. split.
        + intros ((w & t) & E & H). unfold ren in E. cbn [fst snd] in E. injection E as <- <-. apply conflict_ren. apply C1. auto.
        + intros H. destruct (conflict_unren _ _ H) as (w & t & -> & -> & H'). exists (w, t). split; auto. apply C1. auto. }
    rewrite <- (Permutation_map shape (Permutation_map fst Hp)). rewrite !map_map. erewrite map_ext; [reflexivity|]. intros [w t]. cbn. symmetry. apply shape_rwarn.
  Qed.
End Warns.

(** ** The renaming between two numberings *)
Section Codes.
  Context {A : Type} (ix ix' : A -> nat).
  Hypothesis Hsame : same_classes ix ix'.
  (** the new number of an old number *)
  Definition recode (xs : list A) (n : nat) : nat := match find (fun x => ix x =? n) xs with Some x => ix' x | None => 0 end.
  Lemma recode_ok xs x : In x xs -> recode xs (ix x) = ix' x.
  Proof.
    intros Hx. unfold recode. destruct (find (fun y => ix y =? ix x) xs) as [y|] eqn:Ef.
    - apply find_some in Ef as [_ Ef]. apply Nat.eqb_eq in Ef. apply Hsame; auto.
    - exfalso. apply (find_none _ _ Ef) in Hx. rewrite Nat.eqb_refl in Hx. discriminate.
  Qed.
End Codes.
Section Renaming.
  Context {N T E : Type} (nix nix' : N -> nat) (tix tix' : T -> nat).
  Hypothesis Hn : same_classes nix nix'.
  Hypothesis Ht : same_classes tix tix'.
  Variables (start : N) (rules : list (N * list (symbol N T unit) * reducer N T E)).
  Let s := coded nix tix start rules.
  Let s' := coded nix' tix' start rules.
  Definition tok_ex : list T := flat_map (fun r => flat_map (fun X : symbol N T unit => match X with Terminal x => [x] | _ => [] end) (snd (fst r))) rules.
  Definition non_ex : list N := flat_map (fun r => fst (fst r) :: flat_map (fun X : symbol N T unit => match X with NonTerminal x => [x] | _ => [] end) (snd (fst r))) rules.
  Lemma gram_coded : forall (n : N -> nat) (t : T -> nat), gram (coded n t start rules) = map (fun r => mk_rule (n (fst (fst r))) (map (fun X => match X with NonTerminal x => NT (n x) | Terminal x => TM (TSym (t x)) | ErrorSym _ => TM TErr end) (snd (fst r)))) rules.
  Proof. intros n t. unfold gram, coded. cbn [sx_rules]. rewrite map_map. apply map_ext. intros [[a l] g]. reflexivity. Qed.
  Lemma occ_ex (n : N -> nat) (t : T -> nat) u : occurs (gram (coded n t start rules)) (TSym u) -> exists x, In x tok_ex /\ t x = u.
  Proof.
    intros (r & Hr & Hu). rewrite gram_coded in Hr. apply in_map_iff in Hr as (r0 & <- & Hr0). cbn [r_rhs] in Hu. apply in_map_iff in Hu as (X & EX & HX).
    destruct X as [y|y|y]; try discriminate. injection EX as <-. exists y. split; auto. unfold tok_ex. apply in_flat_map. exists r0. split; auto. apply in_flat_map. exists (Terminal y). split; auto. left; auto.
  Qed.
  Lemma non_ex_iff (n : N -> nat) (t : T -> nat) a : In a (nonterminals (gram (coded n t start rules))) <-> exists x, In x non_ex /\ n x = a.
  Proof.
    rewrite nonterminals_spec. split.
    - intros (r & Hr & H). rewrite gram_coded in Hr. apply in_map_iff in Hr as (r0 & <- & Hr0). cbn [r_rhs r_lhs] in H. destruct H as [<-|H].
      + exists (fst (fst r0)). split; auto. apply in_flat_map. exists r0. split; auto. left; auto.
      + apply in_map_iff in H as (X & EX & HX). destruct X as [y|y|y]; try discriminate. injection EX as <-. exists y. split; auto. apply in_flat_map. exists r0. split; auto. right. apply in_flat_map. exists (NonTerminal y). split; auto. left; auto.
    - intros (x & Hx & <-). apply in_flat_map in Hx as (r0 & Hr0 & H). eexists. split; [rewrite gram_coded; apply in_map; exact Hr0|]. cbn [r_lhs r_rhs]. destruct H as [<-|H]; [left; auto|right].
      apply in_flat_map in H as (X & HX & H). apply in_map_iff. exists X. destruct X as [y|y|y]; simpl in H; try contradiction. destruct H as [->|[]]. auto.
  Qed.

  Lemma renaming_coded ss ss' : ~ In ss (nonterminals (gram s)) -> ~ In ss' (nonterminals (gram s')) -> (nix start = ss <-> nix' start = ss') ->
    exists f h, (forall x y, f x = f y -> x = y) /\ (forall x y, h x = h y -> x = y) /\
      (forall x, In x tok_ex -> f (tix x) = tix' x) /\
      augment (gram s') (sx_start s') ss' = map (rrule f h) (augment (gram s) (sx_start s) ss).
  Proof.
    intros Hss Hss' Hst.
    destruct (extend (map tix tok_ex) (recode tix tix' tok_ex)) as (f & Hf & Hfv).
    { intros a b Ha Hb. apply in_map_iff in Ha as (x & <- & Hx). apply in_map_iff in Hb as (y & <- & Hy). rewrite !recode_ok by auto. apply Ht. }
    assert (Hfx : forall x, In x tok_ex -> f (tix x) = tix' x) by (intros x Hx; rewrite Hfv by (apply in_map; auto); apply recode_ok; auto).
    set (U := start :: non_ex).
    set (v := fun a => if Nat.eqb a ss then ss' else recode nix nix' U a).
    assert (Hv : forall x, In x U -> v (nix x) = nix' x).
    { intros x Hx. unfold v. destruct (Nat.eqb (nix x) ss) eqn:E0; [|apply recode_ok; auto]. apply Nat.eqb_eq in E0. destruct Hx as [<-|Hx]; [symmetry; apply Hst; auto|].
      exfalso. apply Hss. apply non_ex_iff. exists x. auto. }
    assert (Hvss : v ss = ss') by (unfold v; rewrite Nat.eqb_refl; auto).
    assert (Hx : forall x, In x U -> nix' x = ss' -> nix x = ss).
    { intros x [<-|Hx] E0; [apply Hst; auto|]. exfalso. apply Hss'. apply non_ex_iff. exists x. auto. }
    destruct (extend (ss :: map nix U) v) as (h & Hh & Hhv).
    { intros a b [<-|Ha] [<-|Hb] E0; auto.
      - apply in_map_iff in Hb as (y & <- & Hy). rewrite Hvss, (Hv y Hy) in E0. symmetry. apply Hx; auto.
      - apply in_map_iff in Ha as (y & <- & Hy). rewrite Hvss, (Hv y Hy) in E0. apply Hx; auto.
      - apply in_map_iff in Ha as (x & <- & Hx0). apply in_map_iff in Hb as (y & <- & Hy). rewrite (Hv x Hx0), (Hv y Hy) in E0. apply Hn; auto. }
    assert (Hhx : forall x, In x U -> h (nix x) = nix' x) by (intros x Hx0; rewrite Hhv by (right; apply in_map; auto); auto).
    assert (Hhss : h ss = ss') by (rewrite <- Hvss; apply Hhv; left; auto).
    exists f, h. split; auto. split; auto. split; auto. unfold augment. rewrite map_app. f_equal.
    - unfold s, s'. rewrite !gram_coded, map_map. apply map_ext_in. intros [[a l] g] Hr. unfold rrule. cbn [fst snd r_lhs r_rhs]. f_equal.
      + symmetry. apply Hhx. right. apply in_flat_map. exists (a, l, g). split; auto. left; auto.
      + rewrite map_map. apply map_ext_in. intros [y|y|y] HX; simpl; auto.
        * f_equal. symmetry. apply Hhx. right. apply in_flat_map. exists (a, l, g). split; auto. right. apply in_flat_map. exists (NonTerminal y). split; auto. left; auto.
        * do 2 f_equal. symmetry. apply Hfx. apply in_flat_map. exists (a, l, g). split; auto. apply in_flat_map. exists (Terminal y). split; auto. left; auto.
    - unfold s, s'. cbn [coded sx_start map]. unfold rrule. cbn [r_lhs r_rhs map rsym]. rewrite Hhss, (Hhx start) by (left; auto). reflexivity.
  Qed.
  Lemma gens_coded : gens s = gens s'.
  Proof. unfold gens, s, s', coded. cbn [sx_rules]. rewrite !map_map. apply map_ext. intros [[a l] g]. reflexivity. Qed.
  Lemma len_coded : length (gram s) = length (gram s').
  Proof. unfold s, s'. rewrite !gram_coded, !map_length. reflexivity. Qed.
  Lemma coded_api : forall (n : N -> nat) (t : T -> nat), api_syntax n t (coded n t start rules).
  Proof. intros n t. unfold api_syntax, coded. cbn [sx_rules]. apply Forall_forall. intros c Hc. apply in_map_iff in Hc as ([[a l] g] & <- & _). constructor. Qed.
End Renaming.
