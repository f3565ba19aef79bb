(** * Recovering lists in a text are read in linear time.  C107. *)
From Coq Require Import List Arith Lia Bool NArith ZArith.
From Verif Require Import Lib Hir NfaPath NfaSem NfaModel NfaProofs NfaExact TokNfa DfaModel DfaEdges DfaProofs DfaTop MinModel MinProofs MinTop TokModel TokSpec TokProofs TokTop TokMore MinSafe TokExamples PropTok PropBuild ActualSpec PropActual
  Grammar LrModel LrSpec LrTop ParseModel Trees ParseSpec ParseTop ParseMore ParseExamples PropParse PropRecover ProdCheck ExModel ExSpec ExLex ExTok ExParse PropEx PullModel PullSpec PullProofs PropPull
  StmtSpec PropStmt SepRecSpec PropSepRec LeftRecSpec PropLeftRec WaysSpec PropWays TextRecSpec PropTextRec PropListTime TextTimeSpec.
Import ListNotations.
Local Open Scope list_scope.
Local Open Scope nat_scope.
Local Notation length := List.length.

(** there are at most as many tokens as characters *)
Lemma munch_length {T} (acc : word -> nat -> Prop) (f : T -> N) : (forall p, ~ acc [] p) -> forall text toks, munch acc f text toks -> length toks <= length text.
Proof.
  intros Hn text toks H. induction H as [pend _|pend k p rest [Hk [Hacc _]] _ IH]; [apply Nat.le_0_l|]. rewrite skipn_length in IH. simpl.
  assert (k <> 0) by (intros ->; exact (Hn _ Hacc)). lia.
Qed.

Theorem C107_tokens : forall T hirs f (text : list T) toks, (forall h, In h hirs -> ~ matches (actual h) []) ->
  munch (first_of (length hirs) (actual_lang hirs)) f text toks -> length toks <= length text.
Proof.
  intros T hirs f text toks Hn H. eapply munch_length; [|exact H]. intros p (_ & (h & Hh & Hm) & _). eapply Hn; [eapply nth_error_In; eauto|exact Hm].
Qed.
Print Assumptions C107_tokens.

Theorem C107_linear : forall K V Err (nix : V -> nat) (tix : K -> nat) e base X R sep (s : syntax V K Err) Pr,
  recovering_list base X R sep s -> api_syntax nix tix s -> statement_rules base X R sep -> makes e s Pr [] -> productive (gram s) ->
  exists C, forall T S P PErr (parse : P -> hir + PErr) env fuel0 (patterns : list (P * (list N -> list T -> K))) hirs t tws (pull : S -> res (option T * S)) f,
  parses_wf parse -> env_ok env -> env_honest env -> parsed parse patterns hirs -> TokModel.build P PErr parse env fuel0 patterns = BOk (t, tws) ->
  (forall h, In h hirs -> ~ matches (actual h) []) ->
  forall src text src', delivers pull src text src' -> over pull src' ->
  parse_pull tix (gnext pull (pure_map f) t (length text + 1)) Pr (C * (length text + 1)) (gtokenize src tt) <> OutOfFuel.
Proof.
  intros K V Err nix tix e base X R sep s Pr Hs Ha Hr Hmk Hp.
  assert (HC : exists C, forall w, ParseModel.parse tix Pr (C * (length w + 1)) w <> OutOfFuel).
  { destruct Hs as [(g1 & g2 & g3 & ->)|[(g1 & g2 & g3 & ->)|(g1 & g2 & g3 & g4 & ->)]].
    - destruct (C106_statements _ _ _ nix tix e base X R sep g1 g2 g3 Pr Ha Hr Hmk Hp) as [_ [C HC]]. exists C. exact (HC _ _ _ nix tix e base g1 g2 g3 Pr eq_refl Ha Hmk).
    - destruct (C106_lists _ _ _ nix tix e base X R sep g1 g2 g3 Pr Ha Hr Hmk Hp) as [_ [C HC]]. exists C. exact (HC _ _ _ nix tix e base g1 g2 g3 Pr eq_refl Ha Hmk).
    - destruct (C106_left_lists _ _ _ nix tix e base X R sep g1 g2 g3 g4 Pr Ha Hr Hmk Hp) as [_ [C HC]]. exists C. exact (HC _ _ _ nix tix e base g1 g2 g3 g4 Pr eq_refl Ha Hmk). }
  destruct HC as [C HC]. exists C. intros T S P PErr parse env fuel0 ps hirs t tws pull f W O H Hpa Hb Hnn src text src' Hd Ho Hf.
  destruct (C59_pipeline _ _ _ _ _ parse env fuel0 ps hirs t tws _ _ nix tix e s Pr [] pull f W O H Hpa Hb Hnn Ha Hmk src text src' Hd Ho (length text + 1) ltac:(lia)) as (toks & ks & A1 & A2 & A3).
  pose proof (C107_tokens _ _ _ _ _ Hnn A1) as Hl. assert (Hl2 : length ks = length toks) by (clear - A2; induction A2; simpl; congruence). specialize (A3 (C * (length text + 1))). rewrite Hf in A3. cbn [bind] in A3.
  specialize (HC ks). apply HC. unfold ParseModel.parse, parse_full in *.
  destruct (loop (parse_step tix Pr) (C * (length ks + 1)) (ps_init Pr ks)) as [x| |] eqn:E0; [exfalso|exfalso|reflexivity];
    (rewrite (loop_mono _ _ (C * (length text + 1)) _ _ E0) in A3; [discriminate|discriminate|apply Nat.mul_le_mono_l; lia]).
Qed.
Print Assumptions C107_linear.

(** the hypotheses on the text and the tokenizer are those of [C105_example] *)
Example C107_example : recovering_list st_base 0 1 2 wy1 /\ api_syntax no_vals self wy1 /\ statement_rules st_base 0 1 2 /\ makes env0 wy1 P_wy1 [] /\ productive (gram wy1) /\
  parses_wf (parse_in tr_hirs) /\ env_ok plain_env /\ env_honest plain_env /\ parsed (parse_in tr_hirs) tr_patterns tr_hirs /\
  (exists ws, tr_built = BOk (tr_tok, ws)) /\ (forall h, In h tr_hirs -> ~ matches (actual h) []) /\
  (exists src', delivers pull_list tr_text tr_text src' /\ over pull_list src').
Proof.
  destruct C105_example as (H1 & H2 & H3 & H4 & H5 & H6 & H7 & H8 & H9 & H10 & _ & H11 & _).
  split; [|tauto]. first [left; do 3 eexists; reflexivity|right; left; do 3 eexists; reflexivity|right; right; do 4 eexists; reflexivity].
Qed.
