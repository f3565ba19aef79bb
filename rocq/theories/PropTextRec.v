(** * Property C105: from text to value, error recovery included *)
From Coq Require Import List Arith Lia Bool NArith ZArith.
From Verif Require Import Lib Hir NfaPath NfaSem NfaModel NfaProofs NfaExact TokNfa DfaModel DfaEdges DfaProofs DfaTop MinModel MinProofs MinTop TokModel TokSpec TokProofs TokTop TokMore MinSafe TokExamples PropTok PropBuild ActualSpec PropActual
  Grammar LrModel LrSpec LrTop ParseModel Trees ParseSpec ParseTop ParseMore ParseExamples PropParse PropRecover ProdCheck ExModel ExSpec ExLex ExTok ExParse PropEx PullModel PullSpec PullProofs PropPull
  StmtSpec PropStmt SepRecSpec PropSepRec LeftRecSpec PropLeftRec WaysSpec PropWays TextRecSpec.
Import ListNotations.
Local Open Scope list_scope.
Local Open Scope nat_scope.
Local Notation length := List.length.

(** the outcome for a text is that of [parse] for its tokens, with any grammar *)
Theorem C105_any : forall K T S P PErr (parse : P -> hir + PErr) env fuel0 (patterns : list (P * (list N -> list T -> K))) hirs t tws
  V Err (nix : V -> nat) (tix : K -> nat) e (s : syntax V K Err) Pr ws (pull : S -> res (option T * S)) f,
  parses_wf parse -> env_ok env -> env_honest env -> parsed parse patterns hirs -> TokModel.build P PErr parse env fuel0 patterns = BOk (t, tws) ->
  (forall h, In h hirs -> ~ matches (actual h) []) ->
  api_syntax nix tix s -> makes e s Pr ws ->
  forall src text src', delivers pull src text src' -> over pull src' ->
  exists toks ks, munch (first_of (length hirs) (actual_lang hirs)) f text toks /\ made_tokens f patterns ks toks /\
    forall o, answers tix pull f t Pr src o <-> returns tix Pr ks o.
Proof.
  intros K T S P PErr parse env fuel0 ps hirs t tws V Err nix tix e s Pr ws pull f W O H Hp Hb Hnn Ha Hmk src text src' Hd Ho.
  destruct (C59_pipeline _ _ _ _ _ parse env fuel0 ps hirs t tws _ _ nix tix e s Pr ws pull f W O H Hp Hb Hnn Ha Hmk src text src' Hd Ho (Datatypes.S (length text)) (Nat.lt_succ_diag_r _)) as (toks & ks & A1 & A2 & _).
  exists toks, ks. split; auto. split; auto.
  assert (Hpipe : forall fuel1, length text < fuel1 -> forall fuel, (do r <- parse_pull tix (gnext pull (pure_map f) t fuel1) Pr fuel (gtokenize src tt); Ok (fst r)) = ParseModel.parse tix Pr fuel ks).
  { intros fuel1 H1. destruct (C59_pipeline _ _ _ _ _ parse env fuel0 ps hirs t tws _ _ nix tix e s Pr ws pull f W O H Hp Hb Hnn Ha Hmk src text src' Hd Ho fuel1 H1) as (toks' & ks' & B1 & B2 & B3).
    assert (toks' = toks) as ->. { eapply munch_det; eauto. intros w p q (_ & X1 & X2) (_ & Y1 & Y2). destruct (Nat.lt_trichotomy p q) as [Hl|[Hl|Hl]]; auto; exfalso; [eapply Y2|eapply X2]; eauto. }
    assert (ks' = ks) as ->; auto. clear - A2 B2. revert ks' B2. induction A2 as [|k x ks toks (p & m & Hm & He) _ IH]; intros ks' B2; inversion B2 as [|k' x' ks1 toks1 (p' & m' & Hm' & He')]; subst; auto.
    rewrite Hm in Hm'. injection Hm' as <- <-. f_equal. auto. }
  assert (Hmono : forall o k k', ParseModel.parse tix Pr k ks = Ok o -> k <= k' -> ParseModel.parse tix Pr k' ks = Ok o).
  { intros o k k' H1 Hle. unfold ParseModel.parse, parse_full in *. destruct (loop (parse_step tix Pr) k (ps_init Pr ks)) as [x| |] eqn:E0; try discriminate.
    rewrite (loop_mono _ _ k' _ _ E0); auto. discriminate. }
  intros o. split.
  - intros [F HF]. destruct (HF (max F (Datatypes.S (length text))) ltac:(lia)) as [src'' Hx]. exists (max F (Datatypes.S (length text))). rewrite <- (Hpipe (max F (Datatypes.S (length text)))) by lia. rewrite Hx. reflexivity.
  - intros [k Hk]. exists (max k (Datatypes.S (length text))). intros fuel Hle. pose proof (Hpipe fuel ltac:(lia) fuel) as Hq. rewrite (Hmono _ _ fuel Hk) in Hq by lia.
    destruct (parse_pull tix (gnext pull (pure_map f) t fuel) Pr fuel (gtokenize src tt)) as [[o' x]| |]; try discriminate. simpl in Hq. injection Hq as ->. eauto.
Qed.
Print Assumptions C105_any.

(** statement lists: R ::= X sep R | error sep R | (nothing) *)
Theorem C105_statements : forall K T S P PErr (parse : P -> hir + PErr) env fuel0 (patterns : list (P * (list N -> list T -> K))) hirs t tws
  V Err (nix : V -> nat) (tix : K -> nat) e base X R sep (g1 g2 g3 : reducer V K Err) Pr (pull : S -> res (option T * S)) f,
  let s := stmt_list base X R sep g1 g2 g3 in
  parses_wf parse -> env_ok env -> env_honest env -> parsed parse patterns hirs -> TokModel.build P PErr parse env fuel0 patterns = BOk (t, tws) ->
  (forall h, In h hirs -> ~ matches (actual h) []) ->
  api_syntax nix tix s -> statement_rules base X R sep -> makes e s Pr [] -> productive (gram s) -> (forall ks, total_on tix s ks) ->
  forall src text src', delivers pull src text src' -> over pull src' ->
  exists toks ks, munch (first_of (length hirs) (actual_lang hirs)) f text toks /\ made_tokens f patterns ks toks /\
    (forall v, answers tix pull f t Pr src (ROk v) <-> program tix base X sep g1 g2 g3 ks v) /\
    (finished tix sep ks -> exists v, program tix base X sep g1 g2 g3 ks v) /\
    (~ finished tix sep ks -> answers tix pull f t Pr src RNotFound).
Proof.
  intros K T S P PErr parse env fuel0 ps hirs t tws V Err nix tix e base X R sep g1 g2 g3 Pr pull f s W O H Hp Hb Hnn Ha Hr Hmk Hpr Htot src text src' Hd Ho.
  destruct (C105_any _ _ _ _ _ parse env fuel0 ps hirs t tws _ _ nix tix e s Pr [] pull f W O H Hp Hb Hnn Ha Hmk src text src' Hd Ho) as (toks & ks & A1 & A2 & A3).
  exists toks, ks. split; auto. split; auto. destruct (C76_exact _ _ _ nix tix e base X R sep g1 g2 g3 Pr ks Ha Hr Hmk Hpr (Htot ks)) as (B1 & B2 & B3).
  split; [intros v; rewrite A3; apply B1|]. split; auto. intros Hf. apply A3. auto.
Qed.
Print Assumptions C105_statements.

(** separated lists: R ::= X sep R | error sep R | X *)
Theorem C105_right : forall K T S P PErr (parse : P -> hir + PErr) env fuel0 (patterns : list (P * (list N -> list T -> K))) hirs t tws
  V Err (nix : V -> nat) (tix : K -> nat) e base X R sep (g1 g2 g3 : reducer V K Err) Pr (pull : S -> res (option T * S)) f,
  let s := rec_list base X R sep g1 g2 g3 in
  parses_wf parse -> env_ok env -> env_honest env -> parsed parse patterns hirs -> TokModel.build P PErr parse env fuel0 patterns = BOk (t, tws) ->
  (forall h, In h hirs -> ~ matches (actual h) []) ->
  api_syntax nix tix s -> statement_rules base X R sep -> makes e s Pr [] -> productive (gram s) -> (forall ks, total_on tix s ks) ->
  forall src text src', delivers pull src text src' -> over pull src' ->
  exists toks ks, munch (first_of (length hirs) (actual_lang hirs)) f text toks /\ made_tokens f patterns ks toks /\
    (forall v, answers tix pull f t Pr src (ROk v) <-> read_list tix base X sep g1 g2 g3 ks v) /\
    (last_right tix base X sep ks -> exists v, read_list tix base X sep g1 g2 g3 ks v) /\
    (~ last_right tix base X sep ks -> answers tix pull f t Pr src RNotFound).
Proof.
  intros K T S P PErr parse env fuel0 ps hirs t tws V Err nix tix e base X R sep g1 g2 g3 Pr pull f s W O H Hp Hb Hnn Ha Hr Hmk Hpr Htot src text src' Hd Ho.
  destruct (C105_any _ _ _ _ _ parse env fuel0 ps hirs t tws _ _ nix tix e s Pr [] pull f W O H Hp Hb Hnn Ha Hmk src text src' Hd Ho) as (toks & ks & A1 & A2 & A3).
  exists toks, ks. split; auto. split; auto. destruct (C101_exact _ _ _ nix tix e base X R sep g1 g2 g3 Pr ks Ha Hr Hmk Hpr (Htot ks)) as (B1 & B2 & B3).
  split; [intros v; rewrite A3; apply B1|]. split; auto. intros Hf. apply A3. auto.
Qed.
Print Assumptions C105_right.

(** separated lists with left recursion: R ::= X | error | R sep X | R sep error *)
Theorem C105_left : forall K T S P PErr (parse : P -> hir + PErr) env fuel0 (patterns : list (P * (list N -> list T -> K))) hirs t tws
  V Err (nix : V -> nat) (tix : K -> nat) e base X R sep (g1 g2 g3 g4 : reducer V K Err) Pr (pull : S -> res (option T * S)) f,
  let s := left_rec base X R sep g1 g2 g3 g4 in
  parses_wf parse -> env_ok env -> env_honest env -> parsed parse patterns hirs -> TokModel.build P PErr parse env fuel0 patterns = BOk (t, tws) ->
  (forall h, In h hirs -> ~ matches (actual h) []) ->
  api_syntax nix tix s -> statement_rules base X R sep -> makes e s Pr [] -> productive (gram s) -> (forall ks, total_on tix s ks) ->
  forall src text src', delivers pull src text src' -> over pull src' ->
  exists toks ks, munch (first_of (length hirs) (actual_lang hirs)) f text toks /\ made_tokens f patterns ks toks /\
    (ks <> [] -> (forall v, answers tix pull f t Pr src (ROk v) <-> left_value tix base X sep g1 g2 g3 g4 ks ks None v) /\
       (~ unfinished tix base X sep ks -> exists v, left_value tix base X sep g1 g2 g3 g4 ks ks None v) /\
       (unfinished tix base X sep ks -> answers tix pull f t Pr src RNotFound)).
Proof.
  intros K T S P PErr parse env fuel0 ps hirs t tws V Err nix tix e base X R sep g1 g2 g3 g4 Pr pull f s W O H Hp Hb Hnn Ha Hr Hmk Hpr Htot src text src' Hd Ho.
  destruct (C105_any _ _ _ _ _ parse env fuel0 ps hirs t tws _ _ nix tix e s Pr [] pull f W O H Hp Hb Hnn Ha Hmk src text src' Hd Ho) as (toks & ks & A1 & A2 & A3).
  exists toks, ks. split; auto. split; auto. intros Hks. destruct (C102_exact _ _ _ nix tix e base X R sep g1 g2 g3 g4 Pr ks Ha Hr Hmk Hpr (Htot ks) Hks) as (B1 & B2 & B3).
  split; [intros v; rewrite A3; apply B1|]. split; auto. intros Hf. apply A3. auto.
Qed.
Print Assumptions C105_left.

(** ** Example: [0-9]+ and \+ and ; and the statements of [PropWays]; the text is 1+;23+4;;+; *)
Definition tr_hirs : list hir := [h_num; HLitU 43; HLitU 59].
Definition tr_patterns : list (nat * (list N -> list (nat * N) -> nat)) := [(0, fun _ _ => 0); (1, fun _ _ => 1); (2, fun _ _ => 2)].
Definition tr_built := TokModel.build nat unit (parse_in tr_hirs) plain_env 100 tr_patterns.
Definition tr_tok := match tr_built with BOk (t, _) => t | _ => mk_tok [] 0 [] [] end.
Definition tr_text : list (nat * N) := numbered [49; 43; 59;  50; 51; 43; 52; 59;  59;  43; 59]%N.
Example C105_example : parses_wf (parse_in tr_hirs) /\ env_ok plain_env /\ env_honest plain_env /\ parsed (parse_in tr_hirs) tr_patterns tr_hirs /\
  (exists ws, tr_built = BOk (tr_tok, ws)) /\ (forall h, In h tr_hirs -> ~ matches (actual h) []) /\
  api_syntax no_vals self wy1 /\ statement_rules st_base 0 1 2 /\ makes env0 wy1 P_wy1 [] /\ productive (gram wy1) /\ (forall ks, total_on self wy1 ks) /\
  (exists src', delivers pull_list tr_text tr_text src' /\ over pull_list src') /\
  (exists v src', parse_pull self (gnext pull_list (pure_map snd) tr_tok 100) P_wy1 100 (gtokenize tr_text tt) = Ok (ROk v, src') /\ map (hd 0) v = [100; 0; 100; 100] /\ length v = 4).
Proof.
  assert (W : Forall wf_hir tr_hirs). { repeat constructor; cbn; try discriminate; auto; lia. }
  split; [intros p h; apply (parse_in_wf _ W)|]. split; [apply plain_ok|]. split; [apply plain_ok|]. split; [repeat constructor|]. split; [eexists; vm_compute; reflexivity|]. split.
  { assert (S0 : Forall supported tr_hirs) by (repeat constructor; apply first_err_none; reflexivity).
    intros h Hh Hm. rewrite Forall_forall in W, S0. pose proof (proj2 (C56_compared h (W _ Hh) (S0 _ Hh))) as Hx.
    assert (He : exact_hir h = true) by (destruct Hh as [<-|[<-|[<-|[]]]]; reflexivity). specialize (Hx He _ Hm). clear - Hh Hx.
    destruct Hh as [<-|[<-|[<-|[]]]]; [|discriminate Hx..]. cbn in Hx. destruct Hx as (n & Hx). destruct n; [cbn in Hx; lia|]. destruct Hx as (Hn & a & b & Ha & (c & -> & _) & _). discriminate. }
  split; [raw_rules|]. split; [apply st_rules|]. split; [apply wy_made|]. split; [apply (prod_check_sound _ 4); reflexivity|]. split; [apply wy_total|].
  split; [apply (list_ends tr_text)|]. eexists _, _. split; [vm_compute; reflexivity|]. split; reflexivity.
Qed.
