(** Properties of built tokenizers.  C02, C06, C07, C08, C10, C13, C14, C15, C16, C18, C42.
    [parse] stands for the regex parser; it is arbitrary except that it produces well-formed
    expressions.  [env] stands for the hash seeds of one run. *)
From Verif Require Import Lib Hir NfaPath NfaSem NfaModel NfaProofs NfaExact TokNfa DfaModel DfaEdges DfaProofs DfaTop MinModel MinProofs MinTop TokModel TokSpec TokProofs TokTop TokMore MinSafe TokExamples PropTok.

(** the parsed patterns *)
Definition parsed {P PErr M} (parse : P -> hir + PErr) (patterns : list (P * M)) (hirs : list hir) : Prop :=
  Forall2 (fun x h => parse (fst x) = inl h) patterns hirs.
Definition parses_wf {P PErr} (parse : P -> hir + PErr) : Prop := forall p h, parse p = inl h -> wf_hir h.
(** no pattern uses a feature the tokenizer rejects *)
Definition all_supported (hirs : list hir) : Prop := forall h e, In h hirs -> ~ uses h e.

Lemma parsed_fun {P PErr M} (parse : P -> hir + PErr) (ps : list (P * M)) hs hs' : parsed parse ps hs -> parsed parse ps hs' -> hs = hs'.
Proof. intros H. revert hs'. induction H as [|x h l hs Hx Hl IH]; intros hs' H'; inversion H'; subst; auto. f_equal; [congruence|auto]. Qed.
Lemma parsed_all {P PErr M} (parse : P -> hir + PErr) (ps : list (P * M)) hs : parsed parse ps hs -> parse_all P PErr parse (map fst ps) = inl hs.
Proof. induction 1 as [|x h l hs Hx Hl IH]; simpl; auto. rewrite Hx, IH. reflexivity. Qed.
Lemma parsed_all_inv {P PErr M} (parse : P -> hir + PErr) (ps : list (P * M)) hs : parse_all P PErr parse (map fst ps) = inl hs -> parsed parse ps hs.
Proof.
  intros Hq. apply parse_all_ok in Hq. revert hs Hq. unfold parsed. induction ps as [|x l IH]; simpl; intros hs Hq; inversion Hq; subst; constructor; auto.
Qed.
Lemma demo_parsed : parsed (parse_in demo_hirs) (tagged 4) demo_hirs.
Proof. repeat constructor. Qed.

Lemma sup_all hs : Forall supported hs <-> all_supported hs.
Proof. unfold all_supported, supported. rewrite Forall_forall. split; intros H; intros; eapply H; eauto. Qed.

Section S.
  Context {E T P PErr : Type}.
  Variable parse : P -> hir + PErr.
  Hypothesis Hwf : parses_wf parse.
  Notation maker := (list N -> list T -> E).

  Lemma inv env fuel (ps : list (P * maker)) hirs t ws : env_ok env -> parsed parse ps hirs -> build P PErr parse env fuel ps = BOk (t, ws) ->
    Forall supported hirs /\ Forall wf_hir hirs /\ built hirs (map snd ps) env t /\ warn_good (length hirs) (pat_lang hirs) ws /\ tok_ok t.
  Proof.
    intros He Hp Hb. destruct (build_inv P PErr parse _ _ _ _ _ Hwf He Hb) as (hs & F & A & B & C & D).
    rewrite <- (parsed_fun _ _ _ _ F Hp) in *. split; auto. split; auto. split; auto. split; auto. apply C. rewrite map_length. eapply Forall2_len; eauto.
  Qed.

  Lemma l02 env fuel (ps : list (P * maker)) hirs t ws : env_ok env -> env_honest env -> parsed parse ps hirs -> build P PErr parse env fuel ps = BOk (t, ws) ->
    forall f s e s', next t f s = Ok (Some e, s') ->
    exists items i p m, pend s = items ++ pend s' /\ nth_error ps i = Some (p, m) /\ e = m (map f items) items /\
      forall j, j < i -> ~ regex_lang hirs j (map f items).
  Proof.
    intros He Hh Hp Hb f s e s' Hn. destruct (inv _ _ _ _ _ _ He Hp Hb) as (Hs & Hw & B & _ & Ht).
    destruct (C17_makers_get_the_matched_text _ _ t f Ht s e s' Hn) as (items & text & i & m & A1 & -> & A3 & A4 & A5).
    rewrite (bt_makers _ _ _ _ B) in A4. rewrite nth_error_map in A4. destruct (nth_error ps i) as [[p m']|] eqn:Ei; simpl in A4; inversion A4; subst m'.
    exists items, i, p, m. split; auto. split; auto. split; auto. intros j Hj (h & Hh1 & Hh2).
    apply (bt_accept _ _ _ _ B Hh) in A3 as (_ & _ & A3). apply (A3 j Hj). exists h. split; auto. rewrite Forall_forall in Hs, Hw.
    apply matches_sem; auto; [apply Hw|apply Hs]; eapply nth_error_In; eauto.
  Qed.

  Lemma l07 env fuel (ps : list (P * maker)) hirs t ws : env_ok env -> env_honest env -> parsed parse ps hirs -> build P PErr parse env fuel ps = BOk (t, ws) ->
    forall i w, regex_lang hirs i w -> exists j, j <= i /\ tok_accepts t w j.
  Proof.
    intros He Hh Hp Hb i w (h & Hi & Hm). destruct (inv _ _ _ _ _ _ He Hp Hb) as (Hs & Hw & B & _ & Ht).
    assert (G : pat_lang hirs i w).
    { exists h. split; auto. rewrite Forall_forall in Hs, Hw. apply matches_sem; auto; [apply Hw|apply Hs]; eapply nth_error_In; eauto. }
    assert (Hlt : i < length hirs) by (eapply nth_error_Some_lt; eauto).
    assert (Hdec : (exists j, tok_accepts t w j) \/ forall j, ~ tok_accepts t w j).
    { unfold tok_accepts. destruct (tok_run t w) as [n|] eqn:Er; [|right; intros j (n & Hn & _); congruence].
      destruct (aget Nat.eqb n (tk_end t)) as [j|] eqn:Ea; [left; exists j, n; auto|right; intros j (n' & Hn & Hj); congruence]. }
    destruct Hdec as [[j Hj]|Hno].
    - exists j. split; auto. apply (bt_accept _ _ _ _ B Hh) in Hj as (_ & _ & Hmin). destruct (Nat.le_gt_cases j i); auto. exfalso. eapply Hmin; eauto.
    - exfalso. assert (Hall : forall j, j < length hirs -> ~ pat_lang hirs j w).
      { induction j as [j IH] using lt_wf_ind. intros Hj Hm'. apply (Hno j). apply (bt_accept _ _ _ _ B Hh). split; auto. split; auto.
        intros j' Hj'. apply IH; auto. lia. }
      eapply Hall; eauto.
  Qed.

  (** consecutive pairs exist between any two *)
  Lemma no_warn n (L : nat -> lang) ws : warn_good n L ws -> ws = [] -> forall a b w, a < n -> b < a -> L a w -> L b w -> False.
  Proof.
    intros Hw -> a b w Ha Hb La Lb.
    assert (G : forall d a b, a - b <= d -> a < n -> b < a -> L a w -> L b w -> False).
    { clear a b Ha Hb La Lb. induction d as [|d IH]; intros a b Hd Ha Hb La Lb; [lia|].
      apply (proj2 (Hw a b)). split; auto. split; auto. exists w. split; auto. split; auto.
      intros p Hp Lp. apply (IH a p); auto; lia. }
    eapply G; eauto.
  Qed.

  Lemma mono_any env fuel (ps : list (P * maker)) : parses_wf parse -> env_ok env -> build P PErr parse env fuel ps <> BPanic.
  Proof.
    intros Hw He Hb. destruct (parse_all P PErr parse (map fst ps)) as [hirs|e] eqn:Hp.
    2:{ unfold build in Hb. rewrite split_map, Hp in Hb. discriminate. }
    assert (Hp' : parsed parse ps hirs).
    { apply parsed_all_inv; auto. }
    destruct (@build_ok E T P PErr parse Hw ps hirs Hp') as [(F & HF)|(i & h & e & _ & _ & _ & Hbad)].
    - destruct (HF env (max F fuel) He (Nat.le_max_l _ _)) as (t & ws & Hb' & _).
      unfold build in Hb, Hb'. rewrite split_map, Hp in Hb, Hb'. destruct (tnfa_of hirs) as [nf|e|]; try discriminate.
      destruct (dfa_of (be_order env) fuel nf) as [[d w]| |] eqn:Ed; cbn [bind] in Hb; try discriminate.
      + rewrite (dfa_of_mono _ _ _ _ _ Ed (Nat.le_max_r F fuel)) in Hb'. cbn [bind] in Hb'.
        rewrite Hb' in Hb. discriminate.
      + assert (Ed' : dfa_of (be_order env) (max F fuel) nf = Panic).
        { unfold dfa_of in *. destruct (eps_rec (tn_nodes nf) (tn_begin nf)) as [b| |]; cbn [bind] in *; try discriminate; auto.
          destruct (loop (dfa_step (tn_nodes nf)) fuel (mk_dstate [[]] [(b, 0)] [b] [])) as [st| |] eqn:El; cbn [bind] in Ed; try discriminate.
          - destruct (mark_all _ _). discriminate.
          - erewrite loop_mono; [|exact El|discriminate|apply Nat.le_max_r]. reflexivity. }
        rewrite Ed' in Hb'. discriminate.
    - rewrite Hbad in Hb. discriminate.
  Qed.
End S.

(** C02: the token is made by the first registered pattern among those whose expression
    matches its text *)
Theorem C02_earlier_pattern_wins : forall E T P PErr (parse : P -> hir + PErr) env fuel (patterns : list (P * (list N -> list T -> E))) hirs t ws,
  parses_wf parse -> env_ok env -> env_honest env -> parsed parse patterns hirs -> build P PErr parse env fuel patterns = BOk (t, ws) ->
  forall f s e s', next t f s = Ok (Some e, s') ->
  exists items i p m, pend s = items ++ pend s' /\ nth_error patterns i = Some (p, m) /\ e = m (map f items) items /\
    forall j, j < i -> ~ regex_lang hirs j (map f items).
Proof. intros E T P PErr parse env fuel ps hirs t ws W O H Hp Hb. exact (l02 parse W env fuel ps hirs t ws O H Hp Hb). Qed.
Print Assumptions C02_earlier_pattern_wins.
(** "if" matches patterns 0 and 1 *)
Example C02_example : regex_lang demo_hirs 0 [105; 102]%N /\ regex_lang demo_hirs 1 [105; 102]%N /\
  exists s', next demo_tok snd (tokenize_with (numbered [105; 102]%N)) = Ok (Some (tag 0 [105; 102]%N (numbered [105; 102]%N)), s').
Proof.
  split; [|split].
  - exists h_if. split; auto. exists [105%N], [102%N]. split; auto. split; [reflexivity|]. exists [102%N], []. split; auto. split; reflexivity.
  - exists h_id. split; auto. exists 2. split; auto. exists [105%N], [102%N]. split; auto. split.
    + exists 105%N. split; auto. exists 97%N, 122%N. split; [simpl; auto|]. split; vm_compute; congruence.
    + exists [102%N], []. split; auto. split; [|reflexivity]. exists 102%N. split; auto. exists 97%N, 122%N. split; [simpl; auto|]. split; vm_compute; congruence.
  - eexists. vm_compute. reflexivity.
Qed.

(** C06, provable part: on the decidable class [exact_hir] of expressions the tokenizer accepts
    exactly the regular language *)
Theorem C06_exact_partial : forall E T P PErr (parse : P -> hir + PErr) env fuel p (m : list N -> list T -> E) h t ws,
  parses_wf parse -> env_ok env -> env_honest env -> parse p = inl h -> exact_hir h = true ->
  build P PErr parse env fuel [(p, m)] = BOk (t, ws) ->
  forall w, (exists i, tok_accepts t w i) <-> matches h w.
Proof.
  intros E T P PErr parse env fuel p m h t ws W O H Hp He Hb w.
  assert (Hps : parsed parse [(p, m)] [h]) by (repeat constructor; auto).
  destruct (inv parse W env fuel _ _ t ws O Hps Hb) as (Hs & Hw & B & _ & _).
  assert (Hex : forall p w, pat_lang [h] p w <-> regex_lang [h] p w) by (apply exact_pat_lang; auto).
  split.
  - intros [i Hi]. apply (bt_accept _ _ _ _ B H) in Hi as (H1 & H2 & _). apply Hex in H2 as (h' & H2 & H3).
    destruct i as [|i]; [|simpl in H1; lia]. simpl in H2. inversion H2; subst; auto.
  - intros Hm. exists 0. apply (bt_accept _ _ _ _ B H). split; [simpl; auto|]. split; [apply Hex; exists h; auto|]. intros p' Hp'. lia.
Qed.
Print Assumptions C06_exact_partial.
(** the class contains e.g. [0-9]+ inside concatenation and alternation, and (a|b)*c *)
Example C06_example : forallb exact_hir (HConcat [HRep RZeroOrMore true (HAlt [HLitU 97; HLitU 98]); HLitU 99] ::
                                         HConcat [h_num; HLitU 46; h_num] :: HRep (RBounded 1 3) true (cls 97 122) :: demo_hirs) = true.
Proof. vm_compute. reflexivity. Qed.

(** C06: the full claim is false: (ab* )? accepts "b" *)
Theorem C06_exact_refuted : exists (t : tokenizer (nat * list N * list (nat * N)) (nat * N)) ws,
  build nat unit (parse_in [h_opt]) plain_env 100 (tagged 1) = BOk (t, ws) /\ tok_accepts t [98]%N 0 /\ ~ matches h_opt [98]%N.
Proof.
  destruct (build nat unit (parse_in [h_opt]) plain_env 100 (tagged 1)) as [[t ws]| | |] eqn:Eb; try (vm_compute in Eb; discriminate).
  exists t, ws. split; auto. split.
  - vm_compute in Eb. inversion Eb; subst. eexists. split; vm_compute; reflexivity.
  - intros [H|(u & v & H1 & H2 & _)]; [discriminate|]. cbn in H2. subst u. discriminate.
Qed.
Print Assumptions C06_exact_refuted.

(** C07: a string of a pattern's language is accepted, for that pattern or an earlier one *)
Theorem C07_never_misses : forall E T P PErr (parse : P -> hir + PErr) env fuel (patterns : list (P * (list N -> list T -> E))) hirs t ws,
  parses_wf parse -> env_ok env -> env_honest env -> parsed parse patterns hirs -> build P PErr parse env fuel patterns = BOk (t, ws) ->
  forall i h w, nth_error hirs i = Some h -> matches h w -> exists j, j <= i /\ tok_accepts t w j.
Proof.
  intros E T P PErr parse env fuel ps hirs t ws W O H Hp Hb i h w Hi Hm.
  apply (l07 parse W env fuel ps hirs t ws O H Hp Hb i w). exists h. auto.
Qed.
Print Assumptions C07_never_misses.

(** C08: build fails exactly for the first pattern that does not parse, or else for the first
    unsupported feature; otherwise it succeeds *)
Theorem C08_rejects_exactly : forall E T P PErr (parse : P -> hir + PErr) (patterns : list (P * (list N -> list T -> E))),
  parses_wf parse ->
  (exists i x e, nth_error patterns i = Some x /\ parse (fst x) = inr e /\
     (forall j y, j < i -> nth_error patterns j = Some y -> exists h, parse (fst y) = inl h) /\
     forall env fuel, build P PErr parse env fuel patterns = BErr (RegexError e)) \/
  (exists hirs, parsed parse patterns hirs /\
     ((exists i h e, nth_error hirs i = Some h /\ uses h e /\ first_err h = Some e /\ all_supported (firstn i hirs) /\
         forall env fuel, build P PErr parse env fuel patterns = BErr (ConstructError e)) \/
      (all_supported hirs /\ exists F, forall env fuel, env_ok env -> F <= fuel -> exists t ws, build P PErr parse env fuel patterns = BOk (t, ws)))).
Proof.
  intros E T P PErr parse ps W. destruct (parse_all P PErr parse (map fst ps)) as [hirs|e] eqn:Hp.
  - right. exists hirs.
    assert (Hp' : parsed parse ps hirs).
    { apply parsed_all_inv; auto. }
    split; auto. destruct (@build_ok E T P PErr parse W ps hirs Hp') as [(F & HF)|(i & h & e & H1 & H2 & H3 & H4)].
    + right. split.
      * destruct (HF plain_env F (proj1 plain_ok) (le_n _)) as (t & ws & _ & _ & _ & Hs). apply sup_all; auto.
      * exists F. intros env fuel He Hf. destruct (HF env fuel He Hf) as (t & ws & Hb & _). eauto.
    + left. exists i, h, e. split; auto. split; auto. split; [|split; [apply sup_all; auto|auto]].
      pose proof (tnfa_of_err hirs) as Ht. specialize (H4 plain_env 0). unfold build in H4. rewrite split_map, Hp in H4.
      destruct (tnfa_of hirs) as [nf|e'|]; try discriminate.
      * exfalso. unfold of_res in H4. match type of H4 with match ?x with _ => _ end = _ => destruct x end; discriminate.
      * inversion H4; subst e'. clear -Ht H1 H2 H3. revert i H1 H3. induction hirs as [|x l IH]; intros i H1 H3; [destruct i; discriminate|].
        simpl in Ht. destruct i as [|i]; simpl in H1, H3.
        -- inversion H1; subst x. destruct (first_err h) as [e'|] eqn:Ee; auto. exfalso. eapply first_err_none; eauto.
        -- inversion H3; subst. destruct (first_err x) as [e'|] eqn:Ee; [|eapply IH; eauto]. exfalso. eapply H4; eapply first_err_uses; eauto.
  - left. apply parse_all_err in Hp as (i & p & H1 & H2 & H3). rewrite nth_error_map in H1.
    destruct (nth_error ps i) as [x|] eqn:Ei; simpl in H1; inversion H1; subst p. exists i, x, e. split; auto. split; auto. split.
    + intros j y Hj Hy. apply (H3 j); auto. rewrite nth_error_map, Hy. reflexivity.
    + intros env fuel. unfold build. rewrite split_map.
      assert (Hp : parse_all P PErr parse (map fst ps) = inr e).
      { apply parse_all_err. exists i, (fst x). rewrite nth_error_map, Ei. split; auto. }
      rewrite Hp. reflexivity.
Qed.
Print Assumptions C08_rejects_exactly.
(** all three cases occur *)
Example C08_example : forall env,
  build nat unit (parse_in []) env 0 (tagged 1) = BErr (RegexError tt) /\
  build nat unit (parse_in [h_id; HConcat [HAnchor; HLitU 97; HWordB]]) env 0 (tagged 2) = BErr (ConstructError EWordBoundary) /\
  demo plain_env = BOk (demo_tok, demo_ws).
Proof. intros env. split; [reflexivity|]. split; [reflexivity|apply demo_built]. Qed.

(** C10: ranges are non-empty, sorted and disjoint, and the lookup finds exactly the range
    that contains the character; for any hash behaviour *)
Theorem C10_range_tables_sound : forall E T P PErr (parse : P -> hir + PErr) env fuel (patterns : list (P * (list N -> list T -> E))) t ws,
  parses_wf parse -> env_ok env -> build P PErr parse env fuel patterns = BOk (t, ws) ->
  forall i m, nth_error (tk_goto t) i = Some m ->
  (forall r j, In (r, j) m -> (fst r < snd r)%N /\ j < length (tk_goto t)) /\
  StronglySorted (fun x y => (snd (fst x) <= fst (fst y))%N) m /\
  (forall c j, lookup c m = Some j <-> exists r, In (r, j) m /\ (fst r <= c)%N /\ (c < snd r)%N).
Proof.
  intros E T P PErr parse env fuel ps t ws W O Hb i m Hm.
  destruct (build_inv P PErr parse _ _ _ _ _ W O Hb) as (hs & F & _ & _ & B & _).
  assert (Ht : tok_ok t) by (apply B; rewrite map_length; eapply Forall2_len; eauto).
  assert (Hr := bt_ranges _ _ _ _ B i m Hm). pose proof Hr as [R1 R2].
  assert (Hl : forall c j, lookup c m = Some j <-> exists r, In (r, j) m /\ (fst r <= c)%N /\ (c < snd r)%N).
  { intros c j. rewrite (lookup_spec c m j Hr). unfold in_range. tauto. }
  split; [|split; auto]. intros r j Hin. rewrite Forall_forall in R1. specialize (R1 _ Hin). simpl in R1. split; auto.
  apply (to_target _ Ht i m (fst r) j Hm). apply Hl. exists r. split; auto. lia.
Qed.
Print Assumptions C10_range_tables_sound.
Example C10_example : exists m, nth_error (tk_goto demo_tok) (tk_begin demo_tok) = Some m /\ length m = 5.
Proof. eexists. split; vm_compute; reflexivity. Qed.

(** C13: a warning (j, i) means: i < j both match some string and no pattern in between does.
    [pat_lang] is what the tokenizer accepts for a pattern, which is the regular language for
    exact patterns *)
Theorem C13_warnings_exact : forall E T P PErr (parse : P -> hir + PErr) env fuel (patterns : list (P * (list N -> list T -> E))) hirs t ws,
  parses_wf parse -> env_ok env -> parsed parse patterns hirs -> Forall (fun h => exact_hir h = true) hirs ->
  build P PErr parse env fuel patterns = BOk (t, ws) ->
  forall j i, In (j, i) ws <-> j < length patterns /\ i < j /\ exists w, regex_lang hirs j w /\ regex_lang hirs i w /\ forall p, i < p < j -> ~ regex_lang hirs p w.
Proof.
  intros E T P PErr parse env fuel ps hirs t ws W O Hp He Hb j i.
  destruct (inv parse W env fuel _ _ t ws O Hp Hb) as (Hs & Hw & _ & Hg & _). rewrite (Hg j i).
  assert (Hex := exact_pat_lang hirs Hw Hs He). rewrite (Forall2_len _ _ _ Hp).
  split; intros (A & B & w & C & D & F); (split; [auto|split; [auto|]]); exists w; (split; [apply Hex; auto|split; [apply Hex; auto|]]);
    intros p Hpp Hq; apply (F p Hpp); apply Hex; auto.
Qed.
Print Assumptions C13_warnings_exact.
Example C13_example : demo_ws = [(1, 0)] /\ Forall (fun h => exact_hir h = true) demo_hirs.
Proof. split; [vm_compute; reflexivity|repeat constructor]. Qed.
(** no warning: no two patterns match a common string, whatever the patterns *)
Theorem C13_no_warning_no_overlap : forall E T P PErr (parse : P -> hir + PErr) env fuel (patterns : list (P * (list N -> list T -> E))) hirs t,
  parses_wf parse -> env_ok env -> parsed parse patterns hirs ->
  build P PErr parse env fuel patterns = BOk (t, []) ->
  forall i j w, i < j -> regex_lang hirs i w -> regex_lang hirs j w -> False.
Proof.
  intros E T P PErr parse env fuel ps hirs t W O Hp Hb i j w Hij (hi & Hi & Mi) (hj & Hj & Mj).
  destruct (inv parse W env fuel _ _ t [] O Hp Hb) as (Hs & Hw & _ & Hg & _). rewrite Forall_forall in Hs, Hw.
  eapply (no_warn _ _ _ Hg eq_refl j i w); auto.
  - eapply nth_error_Some_lt; eauto.
  - exists hj. split; auto. apply matches_sem; auto; [apply Hw|apply Hs]; eapply nth_error_In; eauto.
  - exists hi. split; auto. apply matches_sem; auto; [apply Hw|apply Hs]; eapply nth_error_In; eauto.
Qed.
Print Assumptions C13_no_warning_no_overlap.
Example C13_example2 : exists t, build nat unit (parse_in [h_id; h_num; h_sp]) plain_env 100 (tagged 3) = BOk (t, []).
Proof. eexists. vm_compute. reflexivity. Qed.

(** C14: with supported patterns build terminates; it never panics; for any hash behaviour *)
Theorem C14_build_terminates : forall E T P PErr (parse : P -> hir + PErr) (patterns : list (P * (list N -> list T -> E))) hirs,
  parses_wf parse -> parsed parse patterns hirs -> all_supported hirs ->
  (exists F, forall env fuel, env_ok env -> F <= fuel -> exists t ws, build P PErr parse env fuel patterns = BOk (t, ws)) /\
  (forall env fuel, env_ok env -> build P PErr parse env fuel patterns <> BPanic).
Proof.
  intros E T P PErr parse ps hirs W Hp Hs. split; [|intros; apply mono_any; auto].
  destruct (@build_ok E T P PErr parse W ps hirs Hp) as [(F & HF)|(i & h & e & H1 & H2 & _)].
  - exists F. intros env fuel He Hf. destruct (HF env fuel He Hf) as (t & ws & Hb & _). eauto.
  - exfalso. eapply Hs; [eapply nth_error_In; eauto|eauto].
Qed.
Print Assumptions C14_build_terminates.
Example C14_example : all_supported demo_hirs.
Proof. apply sup_all. repeat constructor; apply first_err_none; reflexivity. Qed.

(** C15: the tokens are those of maximal munch over the languages of the expressions *)
Theorem C15_maximal_munch : forall E T P PErr (parse : P -> hir + PErr) env fuel (patterns : list (P * (list N -> list T -> E))) hirs t ws,
  parses_wf parse -> env_ok env -> env_honest env -> parsed parse patterns hirs -> Forall (fun h => exact_hir h = true) hirs ->
  build P PErr parse env fuel patterns = BOk (t, ws) ->
  (forall h, In h hirs -> ~ matches h []) ->
  forall f input fuel', length input < fuel' ->
  exists toks, munch (first_of (length hirs) (regex_lang hirs)) f input toks /\
    exists es, tok_collect fuel' t f (tokenize_with input) = Ok es /\
      Forall2 (fun e x => exists p m, nth_error patterns (fst x) = Some (p, m) /\ e = m (map f (snd x)) (snd x)) es toks.
Proof.
  intros E T P PErr parse env fuel ps hirs t ws W O H Hp He Hb Hnn f input fuel' Hf.
  destruct (inv parse W env fuel _ _ t ws O Hp Hb) as (Hs & Hw & B & _ & Ht).
  assert (Hex := exact_pat_lang hirs Hw Hs He).
  assert (Hacc : forall w p, tok_accepts t w p <-> first_of (length hirs) (regex_lang hirs) w p).
  { intros w p. rewrite (bt_accept _ _ _ _ B H). apply first_of_ext. auto. }
  destruct (tok_collect_terminates t f Ht (tokenize_with input) fuel') as (es & toks & A1 & A2 & A3 & _); auto.
  { intros p Hq. apply Hacc in Hq as (_ & (h & Hh & Hm) & _). eapply Hnn; [eapply nth_error_In; eauto|auto]. }
  exists toks. split; [eapply munch_ext; eauto|]. exists es. split; auto.
  clear -A3 B. induction A3 as [|e x l l' (m & Hm & Hx) Hl IH]; constructor; auto.
  rewrite (bt_makers _ _ _ _ B), nth_error_map in Hm. destruct (nth_error ps (fst x)) as [[p m']|] eqn:Ei; simpl in Hm; inversion Hm; subst m'. eauto.
Qed.
Print Assumptions C15_maximal_munch.
(** the specification determines the tokens *)
Theorem C15_munch_deterministic : forall T n (L : nat -> lang) (f : T -> N) input l l',
  munch (first_of n L) f input l -> munch (first_of n L) f input l' -> l = l'.
Proof.
  intros T n L f input l l' H H'. eapply munch_det; eauto. intros w p q (_ & A & B) (_ & C & D).
  destruct (Nat.lt_trichotomy p q) as [H1|[H1|H1]]; auto; exfalso; [eapply D|eapply B]; eauto.
Qed.
Print Assumptions C15_munch_deterministic.
Example C15_example : forall h, In h demo_hirs -> ~ matches h [].
Proof.
  intros h [<-|[<-|[<-|[<-|[]]]]] H; cbn in H.
  - destruct H as (u & v & H1 & H2 & _). subst u. discriminate.
  - destruct H as (n & H1 & H2). destruct n as [|n]; [lia|]. destruct H2 as (u & v & H3 & (c & -> & _) & _). discriminate.
  - destruct H as (n & H1 & H2). destruct n as [|n]; [lia|]. destruct H2 as (u & v & H3 & (c & -> & _) & _). discriminate.
  - discriminate.
Qed.

(** C16: the function generated by tokenizer! behaves like the tokenizer of the builder,
    even if the two were built with different hash seeds; expansion fails exactly when build does *)
Theorem C16_macro_agrees : forall E T P PErr (parse : P -> hir + PErr) env1 env2 order fuel1 fuel2 (rules : list (P * (list N -> list T -> E))) t1 t2 ws2,
  parses_wf parse -> env_ok env1 -> env_honest env1 -> env_ok env2 -> env_honest env2 -> (forall l, Permutation (order l) l) ->
  tokenizer_macro P PErr parse env1 order fuel1 rules = BOk t1 -> build P PErr parse env2 fuel2 rules = BOk (t2, ws2) ->
  (forall f s, next t1 f s = next t2 f s) /\ (forall fuel f s, tok_collect fuel t1 f s = tok_collect fuel t2 f s).
Proof.
  intros E T P PErr parse env1 env2 order fuel1 fuel2 rules t1 t2 ws2 W O1 H1 O2 H2 Ho Hm Hb.
  pose proof (macro_same P PErr parse W rules env1 env2 order fuel1 fuel2 t1 t2 ws2 O1 H1 Ho O2 H2 Hm Hb) as G.
  split; auto. intros fuel f s. apply collect_same. auto.
Qed.
Print Assumptions C16_macro_agrees.
Theorem C16_macro_fails_with_build : forall E T P PErr (parse : P -> hir + PErr) env order fuel (rules : list (P * (list N -> list T -> E))),
  env_ok env -> parses_wf parse ->
  (tokenizer_macro P PErr parse env order fuel rules = BPanic <-> exists e, build P PErr parse env fuel rules = BErr e).
Proof.
  intros E T P PErr parse env order fuel rules O W. rewrite (macro_fails P PErr parse rules env order fuel O).
  split; [intros [H|H]; auto; exfalso; eapply mono_any; eauto|auto].
Qed.
Print Assumptions C16_macro_fails_with_build.
Example C16_example : exists t, tokenizer_macro nat unit (parse_in demo_hirs) rev_env (fun l => rev l) 100 (tagged 4) = BOk t.
Proof. eexists. vm_compute. reflexivity. Qed.

(** C18, provable part: two tokenizers built with different seeds, under both of which the hash
    tables of minify tell different keys apart, behave identically and give the same warnings *)
Theorem C18_seed_independent_partial : forall E T P PErr (parse : P -> hir + PErr) env1 env2 fuel1 fuel2 (patterns : list (P * (list N -> list T -> E))) t1 ws1 t2 ws2,
  parses_wf parse -> env_ok env1 -> env_honest env1 -> env_ok env2 -> env_honest env2 ->
  build P PErr parse env1 fuel1 patterns = BOk (t1, ws1) -> build P PErr parse env2 fuel2 patterns = BOk (t2, ws2) ->
  (forall f s, next t1 f s = next t2 f s) /\ (forall fuel f s, tok_collect fuel t1 f s = tok_collect fuel t2 f s) /\ (forall x, In x ws1 <-> In x ws2).
Proof.
  intros E T P PErr parse env1 env2 fuel1 fuel2 ps t1 ws1 t2 ws2 W O1 H1 O2 H2 B1 B2.
  destruct (build_same P PErr parse W ps ps env1 env2 fuel1 fuel2 t1 ws1 t2 ws2 eq_refl O1 H1 O2 H2 B1 B2) as [G1 G2].
  split; auto. split; auto. intros fuel f s. apply collect_same. auto.
Qed.
Print Assumptions C18_seed_independent_partial.
(** two different tokenizers *)
Example C18_example : exists t ws, demo rev_env = BOk (t, ws) /\ tk_end t <> tk_end demo_tok.
Proof. eexists _, _. split; [vm_compute; reflexivity|]. vm_compute. discriminate. Qed.

(** C18 for every seed, for the patterns whose automaton passes the test [safe_nodes] of MinSafe.v *)
Theorem C18_safe_patterns_any_seed : forall E T P PErr (parse : P -> hir + PErr) env1 env2 fuel1 fuel2 k (patterns : list (P * (list N -> list T -> E))) hirs t1 ws1 t2 ws2,
  parses_wf parse -> env_ok env1 -> env_ok env2 -> parsed parse patterns hirs -> seed_safe k hirs = true ->
  build P PErr parse env1 fuel1 patterns = BOk (t1, ws1) -> build P PErr parse env2 fuel2 patterns = BOk (t2, ws2) ->
  (forall f s, next t1 f s = next t2 f s) /\ (forall fuel f s, tok_collect fuel t1 f s = tok_collect fuel t2 f s) /\ (forall x, In x ws1 <-> In x ws2).
Proof.
  intros E T P PErr parse env1 env2 fuel1 fuel2 k ps hirs t1 ws1 t2 ws2 W O1 O2 Hp Hs B1 B2.
  rewrite <- (build_strict parse W env1 fuel1 k ps hirs Hp O1 Hs) in B1. rewrite <- (build_strict parse W env2 fuel2 k ps hirs Hp O2 Hs) in B2.
  eapply (C18_seed_independent_partial E T P PErr parse (strict_env env1) (strict_env env2)); eauto using strict_env_ok, strict_env_honest.
Qed.
Print Assumptions C18_safe_patterns_any_seed.
(** ... and so every theorem that assumes [env_honest] applies to such patterns under every seed *)
Theorem C18_safe_patterns_honest : forall E T P PErr (parse : P -> hir + PErr) env fuel k (patterns : list (P * (list N -> list T -> E))) hirs,
  parses_wf parse -> env_ok env -> parsed parse patterns hirs -> seed_safe k hirs = true ->
  exists env', env_ok env' /\ env_honest env' /\ build P PErr parse env fuel patterns = build P PErr parse env' fuel patterns.
Proof.
  intros E T P PErr parse env fuel k ps hirs W O Hp Hs. exists (strict_env env). split; [apply strict_env_ok; auto|]. split; [apply strict_env_honest|].
  symmetry. eapply build_strict; eauto.
Qed.
Print Assumptions C18_safe_patterns_honest.
Example C18_safe_example : seed_safe 100 demo_hirs = true /\ seed_safe 100 [h_unlucky] = false.
Proof. vm_compute. auto. Qed.

(** C18: the full claim is false: for a[b-c]|d[b-e] two seeds give different tokens on "dd" *)
Theorem C18_seed_independent_refuted : exists env1 env2 t1 ws1 t2 ws2, env_ok env1 /\ env_ok env2 /\
  build nat unit (parse_in [h_unlucky]) env1 100 (tagged 1) = BOk (t1, ws1) /\
  build nat unit (parse_in [h_unlucky]) env2 100 (tagged 1) = BOk (t2, ws2) /\
  tok_collect 3 t1 snd (tokenize_with (numbered [100; 100]%N)) <> tok_collect 3 t2 snd (tokenize_with (numbered [100; 100]%N)).
Proof.
  exists plain_env, unlucky_env. eexists _, _, _, _. split; [apply plain_ok|]. split; [apply unlucky_ok|].
  split; [vm_compute; reflexivity|]. split; [vm_compute; reflexivity|]. vm_compute. discriminate.
Qed.
Print Assumptions C18_seed_independent_refuted.

(** C42: patterns that differ only in greediness give the same build result *)
Theorem C42_greediness_irrelevant : forall E T P PErr (parse : P -> hir + PErr) env fuel (p1 p2 : list (P * (list N -> list T -> E))),
  Forall2 (fun x y => snd x = snd y /\ exists h h', parse (fst x) = inl h /\ parse (fst y) = inl h' /\ greedy_all h = greedy_all h') p1 p2 ->
  build P PErr parse env fuel p1 = build P PErr parse env fuel p2.
Proof. intros E T P PErr parse env fuel p1 p2 H. apply build_greedy. auto. Qed.
Print Assumptions C42_greediness_irrelevant.
Example C42_example : greedy_all (HConcat [HRep RZeroOrMore false h_id; HAlt [h_sp; HRep ROneOrMore false h_num]]) =
                      greedy_all (HConcat [HRep RZeroOrMore true h_id; HAlt [h_sp; HRep ROneOrMore true h_num]]).
Proof. reflexivity. Qed.
