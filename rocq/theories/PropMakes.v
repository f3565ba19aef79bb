(** * Property C86: patterns count only through what they make of each text *)
From Verif Require Import Lib Hir NfaPath NfaSem NfaModel NfaProofs NfaExact TokNfa DfaModel DfaEdges DfaProofs DfaTop MinModel MinProofs MinTop TokModel TokSpec TokProofs TokTop TokMore MinSafe TokExamples PropTok PropBuild TokLive NfaLive ActualSpec PropActual PropLook PropPatOrder MakeSpec.

(** two tokenizers give the same tokens: asked with the same pending items, both give the same token and leave the same items, or both give none *)
Definition same_tokens {E T} (t t' : tokenizer E T) : Prop := forall f s s', pend s = pend s' ->
  exists r s1 s1', next t f s = Ok (r, s1) /\ next t' f s' = Ok (r, s1') /\ (r <> None -> pend s1 = pend s1').

Section S.
  Context {E T : Type}.
  Notation maker := (list N -> list T -> E).

  (** the token made of a text, in terms of the tokenizer *)
  Definition tok_makes (t : tokenizer E T) (f : T -> N) (items : list T) (e : E) : Prop :=
    exists p m, tok_accepts t (map f items) p /\ nth_error (tk_makers t) p = Some m /\ e = m (map f items) items.

  Lemma makes_iff (f : T -> N) items e : forall (l : list (hir * maker)), makes f items l e <->
    exists i h m, nth_error l i = Some (h, m) /\ matches (actual h) (map f items) /\ e = m (map f items) items /\
      forall j h' m', j < i -> nth_error l j = Some (h', m') -> ~ matches (actual h') (map f items).
  Proof.
    intros l. split.
    - induction 1 as [h m l H|h m l e H _ (i & h0 & m0 & A & B & C & D)].
      + exists 0, h, m. repeat split; auto. intros j h' m' Hj. lia.
      + exists (S i), h0, m0. repeat split; auto. intros [|j] h' m' Hj Hn; [cbn in Hn; inversion Hn; subst; auto|]. apply (D j h' m'); [lia|exact Hn].
    - intros (i & h & m & A & B & -> & D). revert i A D. induction l as [|[h0 m0] l IH]; intros i A D; [destruct i; discriminate|].
      destruct i as [|i]; [cbn in A; inversion A; subst; constructor; auto|]. constructor; [apply (D 0 h0 m0); [lia|reflexivity]|].
      apply (IH i); [exact A|]. intros j h' m' Hj Hn. apply (D (S j) h' m'); [lia|exact Hn].
  Qed.

  Context {P PErr : Type}.
  Variable parse : P -> hir + PErr.
  Hypothesis Hwf : parses_wf parse.
  Notation build := (build P PErr parse).

  (** the patterns with their expressions *)
  Definition exprs (ps : list (P * maker)) (hs : list hir) : list (hir * maker) := combine hs (map snd ps).

  Lemma exprs_nth (ps : list (P * maker)) hs : length ps = length hs -> forall i h m,
    nth_error (exprs ps hs) i = Some (h, m) <-> nth_error hs i = Some h /\ nth_error (map snd ps) i = Some m.
  Proof.
    unfold exprs. revert hs. induction ps as [|[p m0] ps IH]; intros [|h0 hs] Hl i h m; try discriminate; cbn [combine map].
    - split; [intros H; destruct i; discriminate|intros [H _]; destruct i; discriminate].
    - destruct i as [|i]; cbn; [|apply IH; cbn in Hl; congruence]. split; [intros H; inversion H; auto|intros [H1 H2]; inversion H1; inversion H2; auto].
  Qed.

  Lemma tok_makes_iff env fuel (ps : list (P * maker)) hs t ws : env_ok env -> env_honest env -> parsed parse ps hs -> build env fuel ps = BOk (t, ws) ->
    forall f items e, tok_makes t f items e <-> makes f items (exprs ps hs) e.
  Proof.
    intros He Hh Hp Hb f items e. rewrite makes_iff. assert (Hl : length ps = length hs) by (eapply Forall2_len; eauto).
    assert (Ha := C56_accepts E T P PErr parse env fuel ps hs t ws Hwf He Hh Hp Hb).
    destruct (inv parse Hwf _ _ _ _ _ _ He Hp Hb) as (_ & _ & B & _ & _). split.
    - intros (p & m & H1 & H2 & ->). apply Ha in H1 as ((h & H3 & H4) & H5). rewrite (bt_makers _ _ _ _ B) in H2.
      exists p, h, m. split; [apply exprs_nth; auto|]. repeat split; auto. intros j h' m' Hj Hn. apply exprs_nth in Hn as [Hn _]; auto. eapply H5; eauto.
    - intros (i & h & m & H1 & H2 & -> & H3). apply exprs_nth in H1 as [H1 H4]; auto. exists i, m. split; [|split; [rewrite (bt_makers _ _ _ _ B); auto|auto]].
      apply Ha. split; [eauto|]. intros j h' Hj Hn.
      assert (exists m', nth_error (map snd ps) j = Some m') as [m' Hm].
      { destruct (nth_error (map snd ps) j) as [m'|] eqn:Em; eauto. apply nth_error_None in Em. rewrite map_length in Em. apply nth_error_Some_lt in Hn. lia. }
      apply (H3 j h' m' Hj). apply exprs_nth; auto.
  Qed.

  Lemma tok_makes_some (t : tokenizer E T) (f : T -> N) (items : list T) p : tok_ok t -> tok_accepts t (map f items) p -> exists m, nth_error (tk_makers t) p = Some m /\ tok_makes t f items (m (map f items) items).
  Proof.
    intros Ht Hp. assert (Hlt : p < length (tk_makers t)) by (destruct Hp as (n & _ & Ha); eapply to_maker; eauto).
    destruct (nth_error (tk_makers t) p) as [m|] eqn:Em; [|apply nth_error_None in Em; lia]. exists m. split; auto. exists p, m. auto.
  Qed.

  Definition makes_alike (t t' : tokenizer E T) : Prop := forall f items e, tok_makes t f items e -> tok_makes t' f items e.

  Lemma alike_acc (t t' : tokenizer E T) (f : T -> N) (items : list T) p : tok_ok t -> makes_alike t t' -> tok_accepts t (map f items) p -> exists p', tok_accepts t' (map f items) p'.
  Proof. intros Ht Ha Hp. destruct (tok_makes_some _ _ _ _ Ht Hp) as (m & _ & Hm). destruct (Ha _ _ _ Hm) as (p' & m' & H & _). eauto. Qed.

  Lemma alike_tokens (t t' : tokenizer E T) : tok_ok t -> tok_ok t' -> makes_alike t t' -> makes_alike t' t -> same_tokens t t'.
  Proof.
    intros Ht Ht' Ha Ha' f s s' Hs.
    destruct (next_ok t f Ht s) as (r & s1 & k & E1 & [R1 _ _ _ _]), (next_ok t' f Ht' s') as (r' & s2 & k' & E2 & [R2 _ _ _ _]).
    rewrite <- Hs in R2. destruct r as [e|], r' as [e'|].
    - destruct R1 as (n & p & m & (L1 & L2 & L3) & M1 & -> & Q1), R2 as (n' & p' & m' & (K1 & K2 & K3) & M2 & -> & Q2).
      assert (n = n') as <-.
      { destruct (Nat.lt_trichotomy n n') as [H|[H|H]]; auto; exfalso.
        - destruct (alike_acc _ _ _ _ _ Ht' Ha' K2) as [q Hq]. apply (L3 n' q); auto; lia.
        - destruct (alike_acc _ _ _ _ _ Ht Ha L2) as [q Hq]. apply (K3 n q); auto; lia. }
      destruct (Ha f (firstn n (pend s)) (m (map f (firstn n (pend s))) (firstn n (pend s)))) as (q & m0 & H1 & H2 & H3); [exists p, m; auto|].
      rewrite (tok_accepts_det t' _ _ _ H1 K2) in H2. assert (m0 = m') as -> by congruence.
      eexists _, _, _. split; [exact E1|]. rewrite H3. split; [exact E2|]. intros _. congruence.
    - destruct R1 as (n & p & m & (L1 & L2 & _) & _), R2 as (N2 & _). exfalso. destruct (alike_acc _ _ _ _ _ Ht Ha L2) as [q Hq]. exact (N2 n q L1 Hq).
    - destruct R2 as (n & p & m & (L1 & L2 & _) & _), R1 as (N2 & _). exfalso. destruct (alike_acc _ _ _ _ _ Ht' Ha' L2) as [q Hq]. exact (N2 n q L1 Hq).
    - eexists None, _, _. split; [exact E1|]. split; [exact E2|]. congruence.
  Qed.

  (** and the tokens tell what is made *)
  Lemma tokens_alike (t t' : tokenizer E T) : tok_ok t -> tok_ok t' -> same_tokens t t' -> makes_alike t t'.
  Proof.
    intros Ht Ht' Hs f items e (p & m & Hp & Hm & ->).
    destruct (Hs f (tokenize_with items) (tokenize_with items) eq_refl) as (r & s1 & s1' & E1 & E2 & Hr).
    destruct (next_ok t f Ht (tokenize_with items)) as (r0 & s0 & k & E0 & [R0 _ _ _ _]). rewrite E1 in E0. inversion E0; subst r0 s0. clear E0.
    destruct (next_ok t' f Ht' (tokenize_with items)) as (r0 & s0 & k' & E0 & [R1 _ _ _ _]). rewrite E2 in E0. inversion E0; subst r0 s0. clear E0.
    assert (Hpend : pend (tokenize_with items) = items) by reflexivity. rewrite Hpend in *. destruct r as [e|].
    2:{ exfalso. destruct R0 as [N _]. apply (N (length items) p); [auto|]. rewrite firstn_all. auto. }
    destruct R0 as (n & q & m' & (L1 & L2 & L3) & M1 & -> & Q1).
    assert (n = length items) as ->.
    { destruct (Nat.eq_dec n (length items)) as [|Hne]; auto. exfalso. apply (L3 (length items) p); [lia|]. rewrite firstn_all. auto. }
    rewrite firstn_all in *. rewrite skipn_all in Q1. assert (m' = m) as -> by (rewrite (tok_accepts_det t _ _ _ L2 Hp) in M1; congruence).
    destruct R1 as (n' & q' & m' & (K1 & K2 & _) & M2 & H3 & Q2). rewrite <- Hr in Q2 by discriminate. rewrite Q1 in Q2.
    assert (n' = length items) as ->. { assert (Hl := f_equal (@length T) Q2). rewrite skipn_length in Hl. cbn [length] in Hl. lia. }
    rewrite firstn_all in *. exists q', m'. auto.
  Qed.

  Lemma tokens_collect (t t' : tokenizer E T) f : same_tokens t t' -> forall n s s', pend s = pend s' -> tok_collect n t f s = tok_collect n t' f s'.
  Proof.
    intros Hs n s s' Hp. unfold tok_collect. generalize (@nil E). revert s s' Hp. induction n as [|n IH]; intros s s' Hp acc; [reflexivity|].
    cbn [loop]. unfold collect_step at 1 3. cbn [fst snd]. destruct (Hs f s s' Hp) as (r & s1 & s1' & E1 & E2 & Hr). rewrite E1, E2.
    destruct r as [e|]; [|reflexivity]. apply IH. apply Hr. discriminate.
  Qed.
End S.

(** C86: two tokenizers give the same tokens exactly when their patterns make the same of every text *)
Theorem C86_makes : forall E T P PErr (parse : P -> hir + PErr) env env' fuel fuel' (ps ps' : list (P * (list N -> list T -> E))) hs hs' t ws t' ws',
  parses_wf parse -> env_ok env -> env_honest env -> env_ok env' -> env_honest env' -> parsed parse ps hs -> parsed parse ps' hs' ->
  build P PErr parse env fuel ps = BOk (t, ws) -> build P PErr parse env' fuel' ps' = BOk (t', ws') ->
  (same_makes (exprs ps hs) (exprs ps' hs') <-> same_tokens t t').
Proof.
  intros E T P PErr parse env env' fuel fuel' ps ps' hs hs' t ws t' ws' W He Hh He' Hh' Hp Hp' Hb Hb'.
  assert (G := tok_makes_iff parse W env fuel ps hs t ws He Hh Hp Hb). assert (G' := tok_makes_iff parse W env' fuel' ps' hs' t' ws' He' Hh' Hp' Hb').
  assert (Ht : tok_ok t) by apply (inv parse W _ _ _ _ _ _ He Hp Hb). assert (Ht' : tok_ok t') by apply (inv parse W _ _ _ _ _ _ He' Hp' Hb').
  split.
  - intros H. apply alike_tokens; auto; intros f items e Hm; [apply G', H, G; auto|apply G, H, G'; auto].
  - intros H f items e. rewrite <- G, <- G'. split; apply tokens_alike; auto.
    intros f0 s s' Hs. destruct (H f0 s' s (eq_sym Hs)) as (r & s1 & s1' & E1 & E2 & Hr). exists r, s1', s1. repeat split; auto. intros Hn. symmetry. auto.
Qed.
Print Assumptions C86_makes.

(** then collecting all tokens gives the same list (or neither ends) *)
Theorem C86_collected : forall E T (t t' : tokenizer E T), same_tokens t t' ->
  forall f input n, tok_collect n t f (tokenize_with input) = tok_collect n t' f (tokenize_with input).
Proof. intros E T t t' H f input n. apply tokens_collect; auto. Qed.
Print Assumptions C86_collected.

(** and, if no pattern has an alternative that matches nothing at all, every single call agrees, down to the items taken from the underlying
    iterator (for closures that reach every character) *)
Theorem C86_calls : forall E T P PErr (parse : P -> hir + PErr) env env' fuel fuel' (ps ps' : list (P * (list N -> list T -> E))) hs hs' t ws t' ws',
  parses_wf parse -> env_ok env -> env_honest env -> env_ok env' -> env_honest env' -> parsed parse ps hs -> parsed parse ps' hs' ->
  build P PErr parse env fuel ps = BOk (t, ws) -> build P PErr parse env' fuel' ps' = BOk (t', ws') ->
  ps <> [] -> ps' <> [] -> forallb lively hs = true -> forallb lively hs' = true ->
  same_makes (exprs ps hs) (exprs ps' hs') -> forall f, (forall c, exists x, f x = c) -> forall s, next t f s = next t' f s.
Proof.
  intros E T P PErr parse env env' fuel fuel' ps ps' hs hs' t ws t' ws' W He Hh He' Hh' Hp Hp' Hb Hb' Hn Hn' Hl Hl' H f Hf s.
  assert (Ht : tok_ok t) by apply (inv parse W _ _ _ _ _ _ He Hp Hb). assert (Ht' : tok_ok t') by apply (inv parse W _ _ _ _ _ _ He' Hp' Hb').
  assert (Ha := tok_makes_iff parse W env fuel ps hs t ws He Hh Hp Hb). assert (Ha' := tok_makes_iff parse W env' fuel' ps' hs' t' ws' He' Hh' Hp' Hb').
  assert (A : makes_alike t t') by (intros g items e Hm; apply Ha', H, Ha; auto). assert (A' : makes_alike t' t) by (intros g items e Hm; apply Ha, H, Ha'; auto).
  assert (Hr : forall w, exists items, map f items = w).
  { intros w. induction w as [|c w (items & <-)]; [exists []; auto|]. destruct (Hf c) as (x & <-). exists (x :: items). auto. }
  assert (N : hs <> []) by (intros ->; inversion Hp; subst; auto). assert (N' : hs' <> []) by (intros ->; inversion Hp'; subst; auto).
  assert (Hd : forall w, tok_run t w = None <-> tok_run t' w = None).
  { intros w. assert (X := alive_iff E T P PErr parse env fuel ps hs t ws W He Hh Hp Hb N Hl w). assert (X' := alive_iff E T P PErr parse env' fuel' ps' hs' t' ws' W He' Hh' Hp' Hb' N' Hl' w).
    assert (Y : extendable t w <-> extendable t' w).
    { split; intros (v & p & Hv); destruct (Hr (w ++ v)) as (items & Hi); rewrite <- Hi in Hv; [destruct (alike_acc _ _ _ _ _ Ht A Hv) as [q Hq]|destruct (alike_acc _ _ _ _ _ Ht' A' Hv) as [q Hq]]; rewrite Hi in Hq; exists v, q; auto. }
    rewrite Y, <- X' in X. destruct (tok_run t w), (tok_run t' w); split; intros; try congruence; exfalso; [apply (proj1 X)|apply (proj2 X)]; congruence. }
  destruct (alike_tokens t t' Ht Ht' A A' f s s eq_refl) as (r & s1 & s1' & E1 & E2 & Hs).
  destruct (next_ok t f Ht s) as (r0 & s0 & k & E0 & [R1 S1 A1 D1 P1]). rewrite E1 in E0. inversion E0; subst r0 s0. clear E0.
  destruct (next_ok t' f Ht' s) as (r0 & s0 & k' & E0 & [R2 S2 A2 D2 P2]). rewrite E2 in E0. inversion E0; subst r0 s0. clear E0.
  rewrite E1, E2. f_equal. f_equal. assert (k = k') as <-.
  { destruct (Nat.lt_trichotomy k k') as [Hk|[Hk|Hk]]; auto; exfalso.
    - destruct D1 as [D1|D1]; [lia|]. apply (A2 k Hk). apply Hd; auto.
    - destruct D2 as [D2|D2]; [lia|]. apply (A1 k' Hk). apply Hd; auto. }
  assert (Hiter : ti_iter s1 = ti_iter s1') by congruence.
  assert (Heq : pend s1 = pend s1'). { destruct r as [e|]; [apply Hs; discriminate|]. destruct R1 as [_ Q1], R2 as [_ Q2]. congruence. }
  unfold pend in Heq. rewrite Hiter in Heq. apply app_inv_tail in Heq. destruct s1, s1'; cbn in *; congruence.
Qed.
Print Assumptions C86_calls.

(** ** What may be rewritten *)

(** a pattern may be replaced by one with the same language *)
Theorem C86_equivalent : forall E T (l : list (hir * (list N -> list T -> E))) l',
  Forall2 (fun x y => snd x = snd y /\ forall w, matches (actual (fst x)) w <-> matches (actual (fst y)) w) l l' -> same_makes l l'.
Proof.
  intros E T l l' H f items e. split.
  - intros Hm. revert l' H. induction Hm as [h m l Hm|h m l e Hm _ IH]; intros l' H; inversion H as [|? [h' m'] ? l2 [H1 H2] H3]; subst; cbn in H1, H2; subst m'; constructor; auto; [apply H2; auto|].
    intros Hx. apply Hm, H2. auto.
  - intros Hm. revert l H. induction Hm as [h m l' Hm|h m l' e Hm _ IH]; intros l H; inversion H as [|[h' m'] ? l2 ? [H1 H2] H3]; subst; cbn in H1, H2; subst m'; constructor; auto; [apply H2; auto|].
    intros Hx. apply Hm, H2. auto.
Qed.
Print Assumptions C86_equivalent.

Lemma makes_app {E T} (f : T -> N) items (l l1 l2 : list (hir * (list N -> list T -> E))) e :
  ((forall h m, In (h, m) l -> ~ matches (actual h) (map f items)) -> makes f items l1 e -> makes f items l2 e) -> makes f items (l ++ l1) e -> makes f items (l ++ l2) e.
Proof.
  induction l as [|[h m] l IH]; intros H Hm; cbn [app] in *; [apply H; auto; intros ? ? []|]. inversion Hm; subst; constructor; auto.
  apply IH; auto. intros Hl. apply H. intros h' m' [Hx|Hx]; [inversion Hx; subst; auto|eauto].
Qed.

(** a pattern whose matches are all matches of earlier patterns may be deleted *)
Theorem C86_shadowed : forall E T (l l' : list (hir * (list N -> list T -> E))) h m,
  (forall w, matches (actual h) w -> exists h' m', In (h', m') l /\ matches (actual h') w) -> same_makes (l ++ (h, m) :: l') (l ++ l').
Proof.
  intros E T l l' h m H f items e. split; apply makes_app; intros Hl Hm.
  - inversion Hm as [? ? ? H1|? ? ? ? H1 H2]; subst; auto. destruct (H _ H1) as (h' & m' & Hin & Hx). destruct (Hl h' m' Hin Hx).
  - constructor; auto. intros Hx. destruct (H _ Hx) as (h' & m' & Hin & Hy). exact (Hl h' m' Hin Hy).
Qed.
Print Assumptions C86_shadowed.

Lemma actual_alt a b w : matches (actual (HAlt [a; b])) w <-> matches (actual a) w \/ matches (actual b) w.
Proof. change (matches (actual (HAlt [a; b])) w) with (matches (actual a) w \/ matches (actual b) w \/ False). tauto. Qed.

Lemma actual_dec h w : wf_hir h -> supported h -> matches (actual h) w \/ ~ matches (actual h) w.
Proof.
  intros Hw Hs. set (parse := fun _ : unit => @inl hir unit h).
  assert (W : parses_wf parse) by (intros p k Hk; inversion Hk; subst; auto).
  assert (Hp : parsed parse [(tt, fun (_ _ : list N) => tt)] [h]) by (repeat constructor).
  destruct (@build_ok unit N unit unit parse W [(tt, fun _ _ => tt)] [h] Hp) as [(F & HF)|(i & k & e & A1 & A2 & _)].
  - destruct (HF plain_env F (proj1 plain_ok) (le_n _)) as (t & ws & Hb & _).
    assert (Ha := C56_accepts unit N unit unit parse plain_env F [(tt, fun _ _ => tt)] [h] t ws W (proj1 plain_ok) (proj2 plain_ok) Hp Hb w 0).
    assert (Hd : tok_accepts t w 0 \/ ~ tok_accepts t w 0).
    { unfold tok_accepts. destruct (tok_run t w) as [n|]; [|right; intros (n & Hn & _); discriminate].
      destruct (aget Nat.eqb n (tk_end t)) as [[|p]|] eqn:Ea; [left; exists n; auto|right; intros (n' & Hn & Hq); congruence|right; intros (n' & Hn & Hq); congruence]. }
    destruct Hd as [Hd|Hd]; [left|right; intros Hm; apply Hd].
    + apply Ha in Hd as ((k & Hk & Hm) & _). inversion Hk; subst. auto.
    + apply Ha. split; [exists h; auto|]. intros j k Hj. inversion Hj.
  - exfalso. destruct i as [|[|i]]; inversion A1; subst. exact (Hs _ A2).
Qed.

(** an alternation may be written as two patterns with the same maker *)
Theorem C86_alternatives : forall E T (l l' : list (hir * (list N -> list T -> E))) a b m, wf_hir a -> supported a ->
  same_makes (l ++ (HAlt [a; b], m) :: l') (l ++ (a, m) :: (b, m) :: l').
Proof.
  intros E T l l' a b m Hw Hs f items e. split; apply makes_app; intros _ Hm.
  - inversion Hm as [? ? ? H|? ? ? ? H H1]; subst.
    + apply actual_alt in H. destruct (actual_dec a (map f items) Hw Hs) as [Ha|Ha]; [apply makes_here; auto|]. apply makes_later; auto. apply makes_here. tauto.
    + rewrite actual_alt in H. apply makes_later; [tauto|]. apply makes_later; [tauto|auto].
  - inversion Hm as [? ? ? H|? ? ? ? H H1]; subst; [apply makes_here; apply actual_alt; auto|]. inversion H1 as [? ? ? H2|? ? ? ? H2 H3]; subst; [apply makes_here; apply actual_alt; auto|].
    apply makes_later; auto. intros Hx. apply actual_alt in Hx. tauto.
Qed.
Print Assumptions C86_alternatives.

(** two neighbouring patterns may be swapped if no text is matched by both, or if they have the same maker *)
Theorem C86_swapped : forall E T (l l' : list (hir * (list N -> list T -> E))) a b m n, wf_hir a -> supported a -> wf_hir b -> supported b ->
  m = n \/ (forall w, matches (actual a) w -> ~ matches (actual b) w) ->
  same_makes (l ++ (a, m) :: (b, n) :: l') (l ++ (b, n) :: (a, m) :: l').
Proof.
  assert (G : forall E T (f : T -> N) items (l' : list (hir * (list N -> list T -> E))) a b m n e, wf_hir a -> supported a -> wf_hir b -> supported b ->
    m = n \/ (forall w, matches (actual a) w -> ~ matches (actual b) w) -> makes f items ((a, m) :: (b, n) :: l') e -> makes f items ((b, n) :: (a, m) :: l') e).
  { intros E T f items l' a b m n e Wa Sa Wb Sb D Hm. destruct (actual_dec b (map f items) Wb Sb) as [Hb|Hb].
    - inversion Hm as [? ? ? H|? ? ? ? H H1]; subst.
      + destruct D as [->|D]; [constructor; auto|destruct (D _ H Hb)].
      + inversion H1; subst; [constructor; auto|contradiction].
    - apply makes_later; auto. inversion Hm as [? ? ? H|? ? ? ? H H1]; subst; [apply makes_here; auto|]. inversion H1; subst; [contradiction|apply makes_later; auto]. }
  intros E T l l' a b m n Wa Sa Wb Sb D f items e. split; apply makes_app; intros _; apply G; auto. destruct D as [->|D]; [auto|right; intros w H1 H2; exact (D w H2 H1)].
Qed.
Print Assumptions C86_swapped.

(** after such a change the tokenizer can be built again, and gives the same tokens *)
Theorem C86_rewritten : forall E T P PErr (parse : P -> hir + PErr) env fuel (ps ps' : list (P * (list N -> list T -> E))) hs hs' t ws,
  parses_wf parse -> env_ok env -> env_honest env -> parsed parse ps hs -> parsed parse ps' hs' -> Forall supported hs' ->
  build P PErr parse env fuel ps = BOk (t, ws) -> same_makes (exprs ps hs) (exprs ps' hs') ->
  exists F, forall env' fuel', env_ok env' -> env_honest env' -> F <= fuel' ->
  exists t' ws', build P PErr parse env' fuel' ps' = BOk (t', ws') /\ same_tokens t t' /\
    forall f input n, tok_collect n t f (tokenize_with input) = tok_collect n t' f (tokenize_with input).
Proof.
  intros E T P PErr parse env fuel ps ps' hs hs' t ws W He Hh Hp Hp' Hs Hb Hm.
  destruct (@build_ok E T P PErr parse W ps' hs' Hp') as [(F & HF)|(i & h & e & A1 & A2 & _)].
  2:{ exfalso. rewrite Forall_forall in Hs. eapply (Hs h); [eapply nth_error_In; eauto|exact A2]. }
  exists F. intros env' fuel' He' Hh' Hf. destruct (HF env' fuel' He' Hf) as (t' & ws' & Hb' & _). exists t', ws'. split; auto.
  assert (G : same_tokens t t') by (eapply (C86_makes E T P PErr parse env env' fuel fuel' ps ps' hs hs'); eauto). split; auto. intros f input n. apply C86_collected. auto.
Qed.
Print Assumptions C86_rewritten.

Lemma shadowed_builds :
  (exists t ws, build nat unit (parse_in [h_id; h_if; h_num]) plain_env 100 [clash 0; clash 1; clash 2] = BOk (t, ws) /\ ws <> []) /\
  exists t', build nat unit (parse_in [h_id; h_if; h_num]) plain_env 100 [clash 0; clash 2] = BOk (t', []).
Proof. split; [eexists _, _; split; [vm_compute; reflexivity|discriminate]|eexists; vm_compute; reflexivity]. Qed.

(** the identifiers shadow "if" when they come first: the patterns identifier, "if", number and the patterns identifier, number give the same tokens,
    although the first build warns *)
Example C86_example : exists t ws t' ws',
  build nat unit (parse_in [h_id; h_if; h_num]) plain_env 100 [clash 0; clash 1; clash 2] = BOk (t, ws) /\ ws <> [] /\
  build nat unit (parse_in [h_id; h_if; h_num]) plain_env 100 [clash 0; clash 2] = BOk (t', ws') /\ ws' = [] /\
  same_makes (exprs [clash 0; clash 1; clash 2] [h_id; h_if; h_num]) (exprs [clash 0; clash 2] [h_id; h_num]) /\ same_tokens t t'.
Proof.
  assert (S1 : wf_hir h_if /\ supported h_if /\ wf_hir h_id /\ supported h_id).
  { assert (W := demo_wf). rewrite Forall_forall in W. pose proof (proj2 (sup_all demo_hirs) C14_example) as S0. rewrite Forall_forall in S0. split; [apply W; cbn; auto|]. split; [apply S0; cbn; auto|]. split; [apply W; cbn; auto|apply S0; cbn; auto]. }
  destruct S1 as (W1 & S1 & W2 & S2).
  assert (Sh : forall w, matches (actual h_if) w -> exists h' m', In (h', m') [(h_id, snd (clash 0))] /\ matches (actual h') w).
  { intros w H. exists h_id, (snd (clash 0)). split; [left; auto|]. apply (C56_compared h_if W1 S1) in H; [|reflexivity]. apply (C56_compared h_id W2 S2).
    destruct H as (a & b & -> & Ha & c & d & -> & Hc & Hd). cbn in Ha, Hc, Hd. unfold l_eps in Hd. subst a c d.
    exists 2. split; [lia|]. exists [105%N], [102%N]. split; [reflexivity|]. split; [exists 105%N; split; auto; exists 97%N, 122%N; split; [left; auto|split; lia]|].
    exists [102%N], []. split; [reflexivity|]. split; [exists 102%N; split; auto; exists 97%N, 122%N; split; [left; auto|split; lia]|reflexivity]. }
  assert (Sm := C86_shadowed nat N [(h_id, snd (clash 0))] [(h_num, snd (clash 2))] h_if (snd (clash 1)) Sh).
  assert (W : parses_wf (parse_in [h_id; h_if; h_num])).
  { intros p0 h0. apply parse_in_wf. assert (W := demo_wf). rewrite Forall_forall in W. apply Forall_cons; [apply W; cbn; auto 6|apply Forall_cons; [apply W; cbn; auto 6|apply Forall_cons; [apply W; cbn; auto 6|constructor]]]. }
  destruct shadowed_builds as ((t & ws & E1 & Hws) & t' & E2).
  exists t, ws, t', []. split; [exact E1|]. split; [exact Hws|]. split; [exact E2|]. split; [reflexivity|]. split; [exact Sm|].
  eapply (C86_makes nat N nat unit (parse_in [h_id; h_if; h_num]) plain_env plain_env 100 100 [clash 0; clash 1; clash 2] [clash 0; clash 2] [h_id; h_if; h_num] [h_id; h_num]);
    [exact W|apply plain_ok|apply plain_ok|apply plain_ok|apply plain_ok|repeat constructor|repeat constructor|exact E1|exact E2|exact Sm].
Qed.
(** the remaining hypotheses: no empty alternatives, a closure that reaches every character, supported expressions, patterns that do not overlap *)
Example C86_example_calls : forallb lively [h_id; h_if; h_num] = true /\ forallb lively [h_id; h_num] = true /\ (forall c : N, exists x, id x = c) /\
  Forall supported [h_id; h_num] /\ (forall w, matches (actual h_num) w -> ~ matches (actual h_sp) w).
Proof.
  pose proof (proj2 (sup_all demo_hirs) C14_example) as S0. pose proof demo_wf as W0. rewrite Forall_forall in S0, W0.
  split; [reflexivity|]. split; [reflexivity|]. split; [intros c; exists c; reflexivity|].
  split; [apply Forall_cons; [apply S0; cbn; auto 6|apply Forall_cons; [apply S0; cbn; auto 6|constructor]]|].
  assert (W1 : wf_hir h_num) by (apply W0; cbn; auto 6). assert (S1 : supported h_num) by (apply S0; cbn; auto 6).
  assert (W2 : wf_hir h_sp) by (apply W0; cbn; auto 6). assert (S2 : supported h_sp) by (apply S0; cbn; auto 6).
  intros w H1 H2. assert (M1 := proj2 (C56_compared h_num W1 S1) eq_refl w H1). assert (M2 := proj2 (C56_compared h_sp W2 S2) eq_refl w H2). clear H1 H2.
  change (w = [32%N]) in M2. subst w. destruct M1 as ([|n] & Hn & M1); [lia|]. destruct M1 as (a & b & E & (c & -> & lo & hi & [X|[]] & H1 & _) & _). inversion X; subst. inversion E; subst. lia.
Qed.
