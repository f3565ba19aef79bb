(** C19, in terms of the patterns: how far one call reads ahead. *)
From Verif Require Import Lib Hir NfaPath NfaSem NfaModel NfaProofs NfaCorrect NfaTop NfaExact NfaLive TokNfa DfaModel DfaEdges DfaProofs DfaTop MinModel MinProofs MinTop TokModel TokSpec TokProofs TokTop TokMore MinSafe TokExamples PropTok PropBuild TokLive.

Lemma live_lively h w : wf_hir h -> supported h -> lively h = true -> (live h w <-> exists v, sem h B E (w ++ v)).
Proof.
  intros Hw Hs Hl. destruct (nfa_of_spec h Hw [] (Forall_nil _)) as [(hp & n & E1 & (Hok & _ & Hwf & Hm) & _)|(e & _ & He)]; [|exfalso; eapply Hs; eauto].
  assert (Hco := lively_co h Hw Hl [] hp n (Forall_nil _) E1).
  split.
  - intros (hp' & n' & q & E2 & Hp). rewrite E1 in E2. inversion E2; subst hp' n'.
    assert (Hq : In q (nfa_nodes n)) by (apply (path_closed _ (fun p => In p (nfa_nodes n)) _ _ _ (wf_closed _ _ _ Hwf) (wf_begin _ _ _ Hwf) Hp)).
    destruct (Hco q Hq) as [v Hv]. exists v. apply (Hm B E). unfold mat_of. simpl. eapply path_app; eauto.
  - intros [v Hv]. apply (Hm B E) in Hv. unfold mat_of in Hv. simpl in Hv. destruct (path_prefix _ _ _ _ Hv w v eq_refl) as [q Hq].
    exists hp, n, q. auto.
Qed.

(** [w] can be continued to an accepted word *)
Definition extendable {E T} (t : tokenizer E T) (w : word) : Prop := exists v p, tok_accepts t (w ++ v) p.

Lemma alive_iff E T P PErr (parse : P -> hir + PErr) env fuel (patterns : list (P * (list N -> list T -> E))) hirs t ws :
  parses_wf parse -> env_ok env -> env_honest env -> parsed parse patterns hirs -> build P PErr parse env fuel patterns = BOk (t, ws) ->
  hirs <> [] -> forallb lively hirs = true -> forall w, tok_run t w <> None <-> extendable t w.
Proof.
  intros W He Hh Hp Hb Hne Hl w. destruct (inv parse W _ _ _ _ _ _ He Hp Hb) as (Hs & Hw & B & _ & Ht).
  rewrite forallb_forall in Hl. rewrite Forall_forall in Hs, Hw. split.
  - intros Hr. apply (build_live P PErr parse W patterns hirs env fuel t ws He Hh Hp Hb) in Hr.
    assert (Hx : exists h, In h hirs /\ live h w).
    { destruct Hr as [->|Hx]; auto. destruct hirs as [|h hs]; [congruence|]. exists h. split; [simpl; auto|].
      destruct (nfa_of_spec h (Hw h (or_introl eq_refl)) [] (Forall_nil _)) as [(hp & n & E1 & _)|(e & _ & Hu)]; [|exfalso; eapply (Hs h); simpl; eauto].
      exists hp, n, (nfa_begin n). split; auto. constructor. }
    destruct Hx as (h & Hin & Hv). apply (live_lively h w (Hw h Hin) (Hs h Hin) (Hl h Hin)) in Hv as [v Hv].
    apply In_nth_error in Hin as [i Hi]. destruct (accept_any _ _ _ _ B Hh (w ++ v) i) as [j Hj]; [exists h; auto|]. exists v, j. auto.
  - intros (v & p & n & Hn & _) Hr. rewrite (tok_run_dead t w v Hr) in Hn. discriminate.
Qed.

(** C19: when no pattern contains an empty class or an empty alternation, one call pulls from
    the underlying iterator exactly the items up to and including the first one after which no
    continuation of the text could be accepted *)
Theorem C19_lookahead : forall E T P PErr (parse : P -> hir + PErr) env fuel (patterns : list (P * (list N -> list T -> E))) hirs t ws,
  parses_wf parse -> env_ok env -> env_honest env -> parsed parse patterns hirs -> build P PErr parse env fuel patterns = BOk (t, ws) ->
  patterns <> [] -> forallb lively hirs = true ->
  forall f s r s', next t f s = Ok (r, s') ->
  exists n, n <= length (pend s) /\ ti_iter s' = skipn (n - length (ti_queue s)) (ti_iter s) /\
    (forall m, m < n -> exists v p, tok_accepts t (map f (firstn m (pend s)) ++ v) p) /\
    (n = length (pend s) \/ forall v p, ~ tok_accepts t (map f (firstn n (pend s)) ++ v) p).
Proof.
  intros E T P PErr parse env fuel ps hirs t ws W He Hh Hp Hb Hne Hl f s r s' Hn.
  assert (Hne' : hirs <> []) by (intros ->; inversion Hp; subst; congruence).
  assert (Ha := alive_iff E T P PErr parse env fuel ps hirs t ws W He Hh Hp Hb Hne' Hl).
  destruct (inv parse W _ _ _ _ _ _ He Hp Hb) as (_ & _ & _ & _ & Ht).
  destruct (C19_lazy E T t f Ht s r s' Hn) as (n & A1 & A2 & A3 & A4). exists n. split; auto. split; auto. split.
  - intros m Hm. apply Ha. apply A3. auto.
  - destruct A4 as [A4|A4]; auto. right. intros v p Hv. exact (proj2 (Ha (map f (firstn n (pend s)))) (ex_intro _ v (ex_intro _ p Hv)) A4).
Qed.
Print Assumptions C19_lookahead.

(** the same in terms of the regular languages of the patterns, for the patterns on which
    acceptance is exact (C06) *)
Theorem C19_lookahead_regex : forall E T P PErr (parse : P -> hir + PErr) env fuel (patterns : list (P * (list N -> list T -> E))) hirs t ws,
  parses_wf parse -> env_ok env -> env_honest env -> parsed parse patterns hirs -> build P PErr parse env fuel patterns = BOk (t, ws) ->
  patterns <> [] -> forallb lively hirs = true -> forallb exact_hir hirs = true ->
  forall f s r s', next t f s = Ok (r, s') ->
  exists n, n <= length (pend s) /\ ti_iter s' = skipn (n - length (ti_queue s)) (ti_iter s) /\
    (forall m, m < n -> exists v h, In h hirs /\ matches h (map f (firstn m (pend s)) ++ v)) /\
    (n = length (pend s) \/ forall v h, In h hirs -> ~ matches h (map f (firstn n (pend s)) ++ v)).
Proof.
  intros E T P PErr parse env fuel ps hirs t ws W He Hh Hp Hb Hne Hl Hx f s r s' Hn.
  destruct (C19_lookahead E T P PErr parse env fuel ps hirs t ws W He Hh Hp Hb Hne Hl f s r s' Hn) as (n & A1 & A2 & A3 & A4).
  destruct (inv parse W _ _ _ _ _ _ He Hp Hb) as (Hs & Hw & B & _ & _). rewrite forallb_forall in Hx.
  assert (Hex := exact_pat_lang hirs Hw Hs (proj2 (Forall_forall _ _) Hx)).
  exists n. split; auto. split; auto. split.
  - intros m Hm. destruct (A3 m Hm) as (v & p & Hv). apply (bt_accept _ _ _ _ B Hh) in Hv as (_ & Hv & _). apply Hex in Hv as (h & Hi & Hv).
    exists v, h. split; auto. eapply nth_error_In; eauto.
  - destruct A4 as [A4|A4]; auto. right. intros v h Hin Hv. apply In_nth_error in Hin as [i Hi].
    destruct (accept_any _ _ _ _ B Hh (map f (firstn n (pend s)) ++ v) i) as [j Hj]; [apply Hex; exists h; auto|]. exact (A4 v j Hj).
Qed.
Print Assumptions C19_lookahead_regex.

(** the hypotheses hold of identifiers, numbers, keywords and blanks *)
Example C19_lookahead_example : exists t ws, build nat unit (parse_in demo_hirs) plain_env 100 (tagged 4) = BOk (t, ws) /\
  forallb lively demo_hirs = true /\ forallb exact_hir demo_hirs = true /\ parsed (parse_in demo_hirs) (tagged 4) demo_hirs /\
  exists e s', next t snd (tokenize_with (numbered demo_text)) = Ok (Some e, s') /\ ti_iter s' = skipn 3 (numbered demo_text).
Proof.
  eexists _, _. split; [vm_compute; reflexivity|]. split; [reflexivity|]. split; [vm_compute; reflexivity|]. split; [exact demo_parsed|].
  eexists _, _. split; [vm_compute; reflexivity|reflexivity].
Qed.

(** without the condition it is false: with a[] (an empty class after "a") and c registered, a
    call on "ab" reads "b" although nothing that starts with "a" can be accepted *)
Definition h_dead : list hir := [HConcat [HLitU 97; HClassU []]; HLitU 99].
Lemma h_dead_wf : Forall wf_hir h_dead.
Proof. repeat constructor; simpl; try congruence; unfold max_char; try lia. Qed.
Theorem C19_lookahead_dead_refuted : exists (t : tokenizer (nat * list N * list (nat * N)) (nat * N)) ws,
  build nat unit (parse_in h_dead) plain_env 100 (tagged 2) = BOk (t, ws) /\
  (forall v p, ~ tok_accepts t ([97]%N ++ v) p) /\
  exists s', next t snd (tokenize_with (numbered [97; 98; 98]%N)) = Ok (None, s') /\ ti_iter s' = [(2, 98%N)].
Proof.
  destruct (build nat unit (parse_in h_dead) plain_env 100 (tagged 2)) as [[t ws]| | |] eqn:Eb; try (vm_compute in Eb; discriminate).
  exists t, ws. split; auto. split.
  - intros v p Ha. assert (Hp : parsed (parse_in h_dead) (tagged 2) h_dead) by (repeat constructor).
    destruct (inv (parse_in h_dead) (parse_in_wf _ h_dead_wf) _ _ _ _ _ _ (proj1 plain_ok) Hp Eb) as (_ & _ & B & _ & _).
    apply (bt_accept _ _ _ _ B (proj2 plain_ok)) in Ha as (_ & (h & Hi & Hs) & _).
    destruct p as [|[|p]]; simpl in Hi; [| |destruct p; discriminate]; inversion Hi; subst h.
    + simpl in Hs. destruct Hs as (u & x & _ & _ & c & _ & lo & hi & [] & _).
    + simpl in Hs. discriminate.
  - vm_compute in Eb. inversion Eb; subst. eexists. split; vm_compute; reflexivity.
Qed.
Print Assumptions C19_lookahead_dead_refuted.
