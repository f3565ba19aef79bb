(** Properties of the token iterator, for every tokenizer with sound tables.
    C01, C03, C04, C05, C17, C19. *)
From Verif Require Import Lib Hir NfaPath NfaSem NfaModel NfaProofs NfaExact TokNfa DfaModel DfaEdges DfaProofs DfaTop MinModel MinProofs MinTop TokModel TokSpec TokProofs TokTop TokMore TokExamples.

(** The hypothesis of all theorems here: the demo tokenizer meets it, and yields tokens. *)
Example demo_tok_ok : tok_ok demo_tok.
Proof.
  destruct (build_inv nat unit (parse_in demo_hirs) plain_env 100 (tagged 4) demo_tok demo_ws (parse_in_wf _ demo_wf) (proj1 plain_ok) demo_built)
    as (hirs & F & _ & _ & B & _). apply B. rewrite map_length. eapply Forall2_len; eauto.
Qed.
Example demo_collect : tok_collect 100 demo_tok snd (tokenize_with (numbered demo_text)) =
  Ok [(0, [105; 102]%N, [(0, 105%N); (1, 102%N)]); (3, [32]%N, [(2, 32%N)]);
      (1, [105; 102; 102; 121]%N, [(3, 105%N); (4, 102%N); (5, 102%N); (6, 121%N)]); (3, [32]%N, [(7, 32%N)]); (2, [52; 50]%N, [(8, 52%N); (9, 50%N)])].
Proof. vm_compute. reflexivity. Qed.

(** C01: a token is made from the longest prefix of the pending input that the tables accept *)
Theorem C01_longest_match : forall E T (t : tokenizer E T) (f : T -> N), tok_ok t ->
  forall s e s', next t f s = Ok (Some e, s') ->
  exists k p m, k <= length (pend s) /\ tok_accepts t (map f (firstn k (pend s))) p /\
    (forall k' p', k < k' <= length (pend s) -> ~ tok_accepts t (map f (firstn k' (pend s))) p') /\
    nth_error (tk_makers t) p = Some m /\ e = m (map f (firstn k (pend s))) (firstn k (pend s)) /\ pend s' = skipn k (pend s).
Proof.
  intros E T t f Ht s e s' H. destruct (next_ok t f Ht s) as (r & s1 & n & E1 & [R _ _ _ _]). rewrite H in E1. inversion E1; subst r s1.
  destruct R as (k & p & m & (A & B & C) & D & F & G). exists k, p, m. auto 10.
Qed.
Print Assumptions C01_longest_match.

(** C03: consecutive tokens consume the input from the front, each item exactly once *)
Theorem C03_no_input_lost : forall E T (t : tokenizer E T) (f : T -> N), tok_ok t ->
  forall input es s', calls t f (tokenize_with input) es s' ->
  exists items, Forall2 (fun e x => exists p m, nth_error (tk_makers t) p = Some m /\ e = m (map f x) x) es items /\
    input = concat items ++ pend s'.
Proof.
  intros E T t f Ht input es s' H. destruct (calls_ok t f Ht _ _ _ H) as (items & A & B). exists (map snd items).
  split; auto. clear -A. induction A as [|e x l l' (m & Hm & He) Hl IH]; simpl; constructor; auto. eauto.
Qed.
Print Assumptions C03_no_input_lost.
Example C03_example : exists es s', calls demo_tok snd (tokenize_with (numbered demo_text)) es s' /\ length es = 3 /\ pend s' = skipn 7 (numbered demo_text).
Proof.
  eexists _, _. split; [|split].
  - eapply calls_cons; [vm_compute; reflexivity|]. eapply calls_cons; [vm_compute; reflexivity|]. eapply calls_cons; [vm_compute; reflexivity|]. constructor.
  - reflexivity.
  - reflexivity.
Qed.

(** C04: None exactly when no prefix of the pending input is accepted; the items dropped by
    the failing call are those up to the first one without a transition *)
Theorem C04_none_iff_nothing_matches : forall E T (t : tokenizer E T) (f : T -> N), tok_ok t ->
  forall s, ((exists s', next t f s = Ok (None, s')) <-> (forall k p, k <= length (pend s) -> ~ tok_accepts t (map f (firstn k (pend s))) p)) /\
    (forall s', next t f s = Ok (None, s') -> exists n, pend s' = skipn n (pend s) /\
       (forall m, m < n -> tok_run t (map f (firstn m (pend s))) <> None) /\ (n = length (pend s) \/ tok_run t (map f (firstn n (pend s))) = None)).
Proof.
  intros E T t f Ht s. destruct (next_ok t f Ht s) as (r & s1 & n & E1 & [R _ A D _]). split.
  - split.
    + intros [s' H]. rewrite H in E1. inversion E1; subst r s1. apply R.
    + intros H. destruct r as [e|]; [|eauto]. destruct R as (k & p & m & (L1 & L2 & _) & _). exfalso. eapply H; eauto.
  - intros s' H. rewrite H in E1. inversion E1; subst r s1. destruct R as [_ R]. exists n. auto.
Qed.
Print Assumptions C04_none_iff_nothing_matches.
Example C04_example : exists s', next demo_tok snd (tokenize_with (numbered [65; 105]%N)) = Ok (None, s') /\ pend s' = [(1, 105%N)].
Proof. eexists. split; [vm_compute; reflexivity|reflexivity]. Qed.

(** C05, provable part: if the empty string is not accepted, collecting ends, with at most one
    token per item, every token non-empty *)
Theorem C05_terminates_partial : forall E T (t : tokenizer E T) (f : T -> N), tok_ok t -> (forall p, ~ tok_accepts t [] p) ->
  forall input fuel, length input < fuel ->
  exists es items, tok_collect fuel t f (tokenize_with input) = Ok es /\ length es <= length input /\
    Forall2 (fun e x => x <> [] /\ exists p m, nth_error (tk_makers t) p = Some m /\ e = m (map f x) x) es items.
Proof.
  intros E T t f Ht Hn input fuel Hf. destruct (tok_collect_terminates t f Ht (tokenize_with input) fuel Hn Hf) as (es & toks & A & B & C & D & F).
  exists es, (map snd toks). split; auto. split; auto. clear -C F. induction C as [|e x l l' (m & Hm & He) Hl IH]; simpl; [constructor|].
  inversion F; subst. constructor; auto. eauto.
Qed.
Print Assumptions C05_terminates_partial.
Example C05_example : forall p, ~ tok_accepts demo_tok [] p.
Proof. intros p (n & H1 & H2). vm_compute in H1. injection H1 as <-. vm_compute in H2. discriminate. Qed.

(** C05: the full claim is false, exactly for the tokenizers that accept the empty string:
    they produce tokens for ever, on every input *)
Theorem C05_nullable_diverges : forall E T (t : tokenizer E T) (f : T -> N), tok_ok t -> forall p, tok_accepts t [] p ->
  forall input fuel, tok_collect fuel t f (tokenize_with input) = OutOfFuel.
Proof. intros E T t f Ht p Hp input fuel. eapply tok_collect_diverges; eauto. Qed.
Print Assumptions C05_nullable_diverges.
Theorem C05_terminates_refuted : exists (t : tokenizer (nat * list N * list (nat * N)) (nat * N)) ws,
  build nat unit (parse_in [h_star]) plain_env 100 (tagged 1) = BOk (t, ws) /\
  forall input fuel, tok_collect fuel t snd (tokenize_with input) = OutOfFuel.
Proof.
  destruct (build nat unit (parse_in [h_star]) plain_env 100 (tagged 1)) as [[t ws]| | |] eqn:Eb; try (vm_compute in Eb; discriminate).
  exists t, ws. split; auto. intros input fuel.
  assert (Hw : Forall wf_hir [h_star]) by (repeat constructor; vm_compute; congruence).
  destruct (build_inv _ _ _ _ _ _ _ _ (parse_in_wf _ Hw) (proj1 plain_ok) Eb) as (hirs & F & _ & _ & B & _).
  apply (C05_nullable_diverges _ _ t snd) with (p := 0).
  - apply B. rewrite map_length. eapply Forall2_len; eauto.
  - clear -Eb. vm_compute in Eb. inversion Eb; subst. exists 0. split; reflexivity.
Qed.
Print Assumptions C05_terminates_refuted.

(** C17: the maker of the accepted pattern gets the items of a prefix of the pending input,
    in order, and as text exactly their images; [tokenize] is the identity map *)
Theorem C17_makers_get_the_matched_text : forall E T (t : tokenizer E T) (f : T -> N), tok_ok t ->
  forall s e s', next t f s = Ok (Some e, s') ->
  exists items text p m, pend s = items ++ pend s' /\ text = map f items /\ tok_accepts t text p /\
    nth_error (tk_makers t) p = Some m /\ e = m text items.
Proof.
  intros E T t f Ht s e s' H. destruct (C01_longest_match E T t f Ht s e s' H) as (k & p & m & A & B & C & D & F & G).
  exists (firstn k (pend s)), (map f (firstn k (pend s))), p, m. rewrite G, firstn_skipn. auto.
Qed.
Print Assumptions C17_makers_get_the_matched_text.
Theorem C17_tokenize_is_identity : forall E (t : tokenizer E N), tok_ok t ->
  forall s e s', next t (fun c => c) s = Ok (Some e, s') ->
  exists text p m, pend s = text ++ pend s' /\ tok_accepts t text p /\ nth_error (tk_makers t) p = Some m /\ e = m text text.
Proof.
  intros E t Ht s e s' H. destruct (C17_makers_get_the_matched_text E N t (fun c => c) Ht s e s' H) as (items & text & p & m & A & B & C & D & F).
  rewrite map_id in B. subst text. exists items, p, m. auto.
Qed.
Print Assumptions C17_tokenize_is_identity.

(** C19: one call pulls from the underlying iterator exactly the items up to and including
    the first one on which the automaton is stuck (or all), and puts none back *)
Theorem C19_lazy : forall E T (t : tokenizer E T) (f : T -> N), tok_ok t ->
  forall s r s', next t f s = Ok (r, s') ->
  exists n, n <= length (pend s) /\ ti_iter s' = skipn (n - length (ti_queue s)) (ti_iter s) /\
    (forall m, m < n -> tok_run t (map f (firstn m (pend s))) <> None) /\
    (n = length (pend s) \/ tok_run t (map f (firstn n (pend s))) = None).
Proof.
  intros E T t f Ht s r s' H. destruct (next_ok t f Ht s) as (r' & s1 & n & E1 & [R S A D P]). rewrite H in E1. inversion E1; subst r' s1.
  exists n. auto.
Qed.
Print Assumptions C19_lazy.
Example C19_example : exists e s', next demo_tok snd (tokenize_with (numbered demo_text)) = Ok (Some e, s') /\
  ti_iter s' = skipn 3 (numbered demo_text) /\ ti_queue s' = [(2, 32%N)].
Proof. eexists _, _. split; [vm_compute; reflexivity|split; reflexivity]. Qed.
