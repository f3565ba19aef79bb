(** * Two runs of [parse] with the same tables

    The values, tokens and reducers of the two runs are of different types.  What they do is the same as long as
    the tokens are of the same kinds and no reducer fails. *)
From Coq Require Import List Arith Lia Bool.
From Verif Require Import Lib Grammar LrModel ParseModel Trees ParseSpec.
Import ListNotations.

Definition res_rel {A B} (R : A -> B -> Prop) (x : res A) (y : res B) : Prop :=
  match x, y with Ok a, Ok b => R a b | Panic, Panic => True | OutOfFuel, OutOfFuel => True | _, _ => False end.

Section Rel.
  Context {V1 T1 E1 V2 T2 E2 : Type} (tix1 : T1 -> nat) (tix2 : T2 -> nat) (Rv : V1 -> V2 -> Prop) (Rt : T1 -> T2 -> Prop).
  Hypothesis HRt : forall x y, Rt x y -> tix1 x = tix2 y.

  Definition ent_rel (a : entry V1) (b : entry V2) : Prop :=
    match a, b with
    | ENon v i, ENon v' i' => Rv v v' /\ i = i'
    | ETok k i, ETok k' i' => k = k' /\ i = i'
    | EErr lo hi, EErr lo' hi' => lo = lo' /\ hi = hi'
    | EEoi, EEoi => True
    | _, _ => False
    end.
  Definition slot_rel (a : nat * entry V1) (b : nat * entry V2) : Prop := fst a = fst b /\ ent_rel (snd a) (snd b).
  Definition arg_rel (a : arg V1 T1) (b : arg V2 T2) : Prop :=
    match a, b with
    | NonTerminal v, NonTerminal v' => Rv v v'
    | Terminal x, Terminal y => Rt x y
    | ErrorSym l, ErrorSym l' => Forall2 Rt l l'
    | _, _ => False
    end.
  Record srel (a : pstate V1 T1) (b : pstate V2 T2) : Prop := {
    sr_iter : Forall2 Rt (ps_iter a) (ps_iter b);
    sr_state : ps_state a = ps_state b;
    sr_syms : Forall2 Rt (ps_syms a) (ps_syms b);
    sr_buf : ps_buf a = ps_buf b;
    sr_stack : Forall2 slot_rel (ps_stack a) (ps_stack b);
    sr_rec : ps_rec a = ps_rec b }.
  Definition out_rel (a : outcome V1 E1 * list T1) (b : outcome V2 E2 * list T2) : Prop :=
    Forall2 Rt (snd a) (snd b) /\
    match fst a, fst b with ROk v, ROk v' => Rv v v' | RNotFound, RNotFound => True | _, _ => False end.
  Definition step_rel (a : pstate V1 T1 + res (outcome V1 E1 * list T1)) (b : pstate V2 T2 + res (outcome V2 E2 * list T2)) : Prop :=
    match a, b with inl s, inl s' => srel s s' | inr r, inr r' => res_rel out_rel r r' | _, _ => False end.

  Lemma F2_len {A B} (R : A -> B -> Prop) l m : Forall2 R l m -> length l = length m.
  Proof. induction 1; simpl; congruence. Qed.
  Lemma F2_firstn {A B} (R : A -> B -> Prop) l m : Forall2 R l m -> forall n, Forall2 R (firstn n l) (firstn n m).
  Proof. induction 1; intros [|n]; simpl; constructor; auto. Qed.
  Lemma F2_skipn {A B} (R : A -> B -> Prop) l m : Forall2 R l m -> forall n, Forall2 R (skipn n l) (skipn n m).
  Proof. induction 1; intros [|n]; simpl; auto; constructor; auto. Qed.
  Lemma F2_rev {A B} (R : A -> B -> Prop) l m : Forall2 R l m -> Forall2 R (rev l) (rev m).
  Proof. induction 1; simpl; [constructor|]. apply Forall2_app; auto. Qed.
  Lemma F2_nth {A B} (R : A -> B -> Prop) l m : Forall2 R l m -> forall n, match nth_error l n, nth_error m n with Some a, Some b => R a b | None, None => True | _, _ => False end.
  Proof. induction 1; intros [|n]; simpl; auto. apply IHForall2. Qed.

  Lemma read_rel a b : srel a b -> srel (ps_read tix1 a) (ps_read tix2 b).
  Proof.
    intros [H1 H2 H3 H4 H5 H6]. unfold ps_read. rewrite H4. destruct (ps_buf b) as [|c buf] eqn:Eb; [|constructor; auto; congruence].
    inversion H1 as [|x y it it' Hx Hi E1' E2']; constructor; cbn [ps_iter ps_state ps_syms ps_buf ps_stack ps_rec]; auto.
    - apply Forall2_app; auto.
    - rewrite (HRt _ _ Hx), (F2_len _ _ _ H3). reflexivity.
  Qed.
  Lemma first_index_rel l m d : Forall2 ent_rel l m -> first_index l d = first_index m d.
  Proof. induction 1 as [|a b l m Hx Hl IH]; simpl; auto. destruct a, b; simpl in Hx; try tauto; destruct Hx; congruence. Qed.
  Lemma slice_rel l m lo hi : Forall2 Rt l m -> res_rel (Forall2 Rt) (slice l lo hi) (slice m lo hi).
  Proof.
    intros H. unfold slice. rewrite (F2_len _ _ _ H). destruct (_ && _); simpl; auto. apply F2_firstn, F2_skipn. auto.
  Qed.
  Lemma args_rel l m es es' : Forall2 Rt l m -> Forall2 ent_rel es es' -> forall base, res_rel (Forall2 arg_rel) (reduce_args l base es) (reduce_args m base es').
  Proof.
    intros Hl. induction 1 as [|a b es es' Hx _ IH]; intros base; simpl; [constructor|]. destruct a as [v i|k i|lo hi|], b as [v' i'|k' i'|lo' hi'|]; simpl in Hx; try tauto.
    - specialize (IH base). destruct (reduce_args l base es), (reduce_args m base es'); simpl in *; try tauto. constructor; simpl; tauto.
    - destruct Hx as [-> ->]. destruct (i' <? base); simpl; auto. pose proof (F2_nth _ _ _ Hl i') as Hn.
      destruct (nth_error l i') as [x|], (nth_error m i') as [y|]; simpl; try tauto. specialize (IH (S i')).
      destruct (reduce_args l (S i') es), (reduce_args m (S i') es'); simpl in *; try tauto. constructor; auto.
    - destruct Hx as [-> ->]. pose proof (slice_rel l m lo' hi' Hl) as Hs. destruct (slice l lo' hi'), (slice m lo' hi'); simpl in *; try tauto.
      specialize (IH base). destruct (reduce_args l base es), (reduce_args m base es'); simpl in *; try tauto. constructor; simpl; tauto.
  Qed.
  Lemma put_back_rel l m head tail : Forall2 Rt l m -> put_back tix1 l head tail = put_back tix2 m head tail.
  Proof.
    intros H. unfold put_back. induction (seq head (tail - head)) as [|i is IH]; simpl; auto. pose proof (F2_nth _ _ _ H i) as Hn.
    destruct (nth_error l i) as [x|], (nth_error m i) as [y|]; simpl; try tauto. rewrite IH, (HRt _ _ Hn). reflexivity.
  Qed.
  Definition rec_rel (a : nat * list (nat * entry V1) * list nat * bool * nat * nat) (b : nat * list (nat * entry V2) * list nat * bool * nat * nat) : Prop :=
    match a, b with (q, st, rc, bk, h, eh), (q', st', rc', bk', h', eh') => q = q' /\ Forall2 slot_rel st st' /\ rc = rc' /\ bk = bk' /\ h = h' /\ eh = eh' end.
  Lemma recover_rel p eoi rc st st' : Forall2 slot_rel st st' -> forall back cur head ehead,
    match recover p eoi rc back cur head ehead st, recover p eoi rc back cur head ehead st' with Some a, Some b => rec_rel a b | None, None => True | _, _ => False end.
  Proof.
    induction 1 as [|[s a] [s' b] st st' Hx Hst IH]; intros back cur head ehead; cbn [recover].
    - match goal with |- context [match ?x with Some _ => _ | None => None end] => destruct x end; simpl; auto. repeat split; auto.
    - match goal with |- context [match ?x with Some rc' => Some (cur, _, rc', _, _, _) | None => _ end] => destruct x end.
      + repeat split; auto.
      + destruct Hx as [Hs Hx]. simpl in Hs, Hx. subst s'. destruct a as [v i|k i|lo hi|], b as [v' i'|k' i'|lo' hi'|]; simpl in Hx; try tauto; destruct Hx; subst; apply IH.
  Qed.

  Variables (P1 : parser V1 T1 E1) (P2 : parser V2 T2 E2).
  Hypothesis Htab : pr_tab P1 = pr_tab P2.
  (** the turns of the two runs *)
  Lemma turn_rel a b : srel a b ->
    match step_call tix1 P1 a, step_call tix2 P2 b with
    | None, None => step_rel (parse_step tix1 P1 a) (parse_step tix2 P2 b)
    | Some (k, args), Some (k', args') => k = k' /\ Forall2 arg_rel args args' /\
        forall v v', call (pr_gens P1) k args = GOk v -> call (pr_gens P2) k args' = GOk v' -> Rv v v' -> step_rel (parse_step tix1 P1 a) (parse_step tix2 P2 b)
    | _, _ => False
    end.
  Proof.
    intros H0. apply read_rel in H0. unfold step_call, parse_step, call. cbv zeta. rewrite Htab. revert H0. generalize (ps_read tix1 a) (ps_read tix2 b). clear a b.
    intros a b [H1 H2 H3 H4 H5 H6]. rewrite H4, H2, H6. destruct (ps_buf b) as [|[t i] buf]; [exact I|].
    destruct (act (pr_tab P2) (ps_state b) t) as [[[q|k|]|]| |]; simpl; auto.
    - destruct t as [k| |]; simpl; auto; constructor; cbn [ps_iter ps_state ps_syms ps_buf ps_stack ps_rec]; auto; constructor; auto; split; simpl; auto.
    - destruct (nth_error (p_rules (pr_tab P2)) k) as [r|]; simpl; auto. rewrite (F2_len _ _ _ H5). destruct (length (ps_stack b) <? length (r_rhs r)); simpl; auto.
      set (n := length (r_rhs r)).
      assert (Hp : Forall2 slot_rel (rev (firstn n (ps_stack a))) (rev (firstn n (ps_stack b)))) by (apply F2_rev, F2_firstn; auto).
      revert Hp. generalize (rev (firstn n (ps_stack a))) (rev (firstn n (ps_stack b))). intros pa pb Hp.
      assert (He : Forall2 ent_rel (map snd pa) (map snd pb)) by (clear - Hp; induction Hp as [|x y l m Hx _ IH]; simpl; constructor; auto; apply Hx).
      pose proof (args_rel _ _ _ _ H3 He 0) as Ha. destruct (reduce_args (ps_syms a) 0 (map snd pa)) as [args| |], (reduce_args (ps_syms b) 0 (map snd pb)) as [args'| |]; simpl in Ha; try tauto; simpl; auto.
      split; auto. split; auto. intros v v' Hv Hv' HR. destruct (nth_error (pr_gens P1) k) as [g|]; [|discriminate]. destruct (nth_error (pr_gens P2) k) as [g'|]; [|discriminate].
      rewrite Hv, Hv'. assert (Hcur : match pa with [] => ps_state b | (q, _) :: _ => q end = match pb with [] => ps_state b | (q, _) :: _ => q end).
      { inversion Hp as [|[q x] [q' x'] l m Hx _]; subst; auto. apply Hx. }
      rewrite Hcur. destruct (aget _ _ (p_goto (pr_tab P2))) as [row|]; simpl; auto. destruct (aget _ (r_lhs r) row) as [q|]; simpl; auto.
      constructor; cbn [ps_iter ps_state ps_syms ps_buf ps_stack ps_rec]; auto.
      constructor; [|apply F2_skipn; auto]. split; simpl; auto. split; auto. rewrite (F2_len _ _ _ H3). apply first_index_rel. auto.
    - inversion H5 as [|[q x] [q' x'] l m Hx Hl]; simpl; auto. destruct Hx as [_ Hx]. simpl in Hx. destruct x, x'; simpl in *; try tauto. split; simpl; tauto.
    - pose proof (recover_rel (pr_tab P2) (match t with TEoi => true | _ => false end) (ps_rec b) _ _ H5 false (ps_state b) i i) as Hr.
      destruct (recover (pr_tab P2) _ (ps_rec b) false (ps_state b) i i (ps_stack a)) as [[[[[[q st] rc] bk] h] eh]|],
        (recover (pr_tab P2) _ (ps_rec b) false (ps_state b) i i (ps_stack b)) as [[[[[[q' st'] rc'] bk'] h'] eh']|]; simpl in Hr; try tauto.
      + destruct Hr as (-> & Hst & -> & -> & -> & ->). rewrite (put_back_rel _ _ h' i H3). destruct (put_back tix2 (ps_syms b) h' i) as [pb| |]; simpl; auto.
        destruct (act (pr_tab P2) q' TErr) as [[[s|k|]|]| |]; simpl; auto.
        constructor; cbn [ps_iter ps_state ps_syms ps_buf ps_stack ps_rec]; auto. constructor; auto. split; simpl; auto.
      + split; simpl; auto.
  Qed.
  Lemma init_rel w w' : Forall2 Rt w w' -> srel (ps_init P1 w) (ps_init P2 w').
  Proof. intros H. unfold ps_init. rewrite Htab. constructor; cbn [ps_iter ps_state ps_syms ps_buf ps_stack ps_rec]; auto. Qed.
End Rel.

(** a turn with a failing call *)
Lemma call_fails {N T E} (tix : T -> nat) (P : parser N T E) s k args : step_call tix P s = Some (k, args) ->
  match call (pr_gens P) k args with
  | GOk _ => True
  | GErr e => exists it, parse_step tix P s = inr (Ok (RReducer e, it))
  | GPanic => parse_step tix P s = inr Panic
  end.
Proof.
  unfold step_call, parse_step, call. cbv zeta. destruct (ps_buf (ps_read tix s)) as [|[t i] buf]; [discriminate|].
  destruct (act _ _ t) as [[[q|k'|]|]| |]; try discriminate. destruct (nth_error (p_rules _) k') as [r|]; [|discriminate].
  destruct (_ <? _); [discriminate|]. destruct (reduce_args _ 0 _) as [a| |]; try discriminate. intros H. injection H as -> ->.
  destruct (nth_error (pr_gens P) k) as [g|]; auto. destruct (g args); eauto.
Qed.
