(** * Properties of the calculator, example/src/main.rs.  C46, C47, C48.
    [parse] stands for the regex parser, [env] and [e] for the hash seeds of one run, [fo] for the
    operations of f64. *)
From Coq Require Import List NArith ZArith Lia String Ascii.
From Verif Require Import Lib Hir NfaModel DfaModel MinModel TokModel TokSpec TokProofs TokTop TokMore MinSafe TokExamples PropBuild
  Grammar LrModel LrTop ParseModel ParseSpec ParseTop ParseExamples ExModel ExSpec ExLex ExTok ExParse.
Import ListNotations.
Local Open Scope list_scope.
Local Notation length := List.length.

(** ** C46: the parser *)
(** it is made without a warning, whatever the hash seeds are *)
Theorem C46_made : forall F Err (fo : floats F) e, lr_env_ok e ->
  exists K P, forall fuel, K <= fuel -> lr1_new e fuel (@calc_syntax F fo Err) = Ok (P, []).
Proof. intros F Err fo e He. apply calc_new; auto. Qed.
Print Assumptions C46_made.
(** it returns the value of every expression and refuses everything else *)
Theorem C46_evaluates : forall F Err (fo : floats F) e P ws, makes e (@calc_syntax F fo Err) P ws -> forall ts,
  (exists n, is_sum fo ts n /\ returns token_index P ts (ROk (Sum (Some n)))) \/
  ((forall n, ~ is_sum fo ts n) /\ returns token_index P ts RNotFound).
Proof. intros F Err fo e P ws Hm ts. eapply calc_decides; eauto. Qed.
Print Assumptions C46_evaluates.
(** an expression has one value: the precedences and associativities are unambiguous *)
Theorem C46_one_value : forall F (fo : floats F) ts n n', is_sum fo ts n -> is_sum fo ts n' -> n = n'.
Proof. intros F fo ts n n'. apply (@is_sum_det F unit fo). Qed.
Print Assumptions C46_one_value.

(** ** C47: the tokenizer *)
Theorem C47_made : forall F PErr (fo : floats F) (parse : string -> hir + PErr), parses_wf parse -> parsed parse (calc_patterns fo) calc_hirs ->
  exists K, forall env fuel, env_ok env -> K <= fuel -> exists t ws, build_tokenizer fo parse env fuel = BOk (t, ws).
Proof. intros F PErr fo parse W Hp. apply calc_build; auto. Qed.
Print Assumptions C47_made.
(** the tokens of a line are those of its longest lexemes; no maker panics; for every hash seed *)
Theorem C47_tokens : forall F PErr (fo : floats F) (parse : string -> hir + PErr) env fuel t ws, parses_wf parse -> parsed parse (calc_patterns fo) calc_hirs ->
  env_ok env -> build_tokenizer fo parse env fuel = BOk (t, ws) -> parses_numbers fo ->
  forall line fuel', length line < fuel' ->
  exists es ts, tok_collect fuel' t (fun c => c) (tokenize_with line) = Ok es /\ flatten es = Ok ts /\ lexes fo line ts /\ forall ts', lexes fo line ts' -> ts' = ts.
Proof.
  intros F PErr fo parse env fuel t ws W Hp He Hb Hn line fuel' Hf. destruct (calc_tokens fo parse W Hp env fuel t ws He Hb line fuel' Hf) as (es & lx & H1 & H2 & H3).
  destruct (flatten_ok fo es lx Hn (munch_lexeme _ _ H2) H3) as (parts & H4 & H5). exists es, (List.concat parts). split; auto. split; auto.
  assert (Hl : lexes fo line (List.concat parts)) by (exists lx, parts; auto). split; auto. intros ts' H'. eapply lexes_det; eauto.
Qed.
Print Assumptions C47_tokens.
(** the lexemes of a line make up the line: only characters of the last kind are skipped *)
Theorem C47_nothing_lost : forall F PErr (fo : floats F) (parse : string -> hir + PErr) env fuel t ws, parses_wf parse -> parsed parse (calc_patterns fo) calc_hirs ->
  env_ok env -> build_tokenizer fo parse env fuel = BOk (t, ws) ->
  forall line lexemes, Forall (fun c => c <= max_char)%N line -> munch (first_of 9 lexeme) (fun c => c) line lexemes -> List.concat (map snd lexemes) = line.
Proof. intros F PErr fo parse env fuel t ws W Hp He Hb line lx. exact (calc_covers fo parse W Hp env fuel t ws He Hb line lx). Qed.
Print Assumptions C47_nothing_lost.

(** ** C48: the program *)
(** for every line the program prints the value, if the line is an expression, and otherwise the
    error; it does not panic and does not hang *)
Theorem C48_line : forall F PErr Err (fo : floats F) (parse : string -> hir + PErr) env fuel t tws e P ws,
  parses_wf parse -> parsed parse (calc_patterns fo) calc_hirs -> env_ok env -> build_tokenizer fo parse env fuel = BOk (t, tws) ->
  makes e (@calc_syntax F fo Err) P ws -> parses_numbers fo ->
  forall line, exists ts, lexes fo line ts /\ exists K, forall fuel', K <= fuel' ->
    (exists n, is_sum fo ts n /\ calc_line t P fuel' line = Ok (PNumber n)) \/ ((forall n, ~ is_sum fo ts n) /\ calc_line t P fuel' line = Ok (PError RNotFound)).
Proof.
  intros F PErr Err fo parse env fuel t tws e P ws W Hp He Hb Hm Hn line.
  destruct (C47_tokens F PErr fo parse env fuel t tws W Hp He Hb Hn line (S (length line)) (Nat.lt_succ_diag_r _)) as (_ & ts & _ & _ & Hl & Hu).
  exists ts. split; auto.
  assert (Hpre : forall k, length line < k -> exists es, tok_collect k t (fun c => c) (tokenize_with line) = Ok es /\ flatten es = Ok ts).
  { intros k Hk. destruct (C47_tokens F PErr fo parse env fuel t tws W Hp He Hb Hn line k Hk) as (es & ts' & H1 & H2 & H3 & _). rewrite (Hu _ H3) in H2. eauto. }
  assert (Hmono : forall o k k', ParseModel.parse token_index P k ts = Ok o -> k <= k' -> ParseModel.parse token_index P k' ts = Ok o).
  { intros o k k' H Hle. unfold ParseModel.parse, parse_full in *. destruct (loop (parse_step token_index P) k (ps_init P ts)) as [x| |] eqn:E0; try discriminate.
    erewrite loop_mono; [|exact E0|discriminate|exact Hle]. exact H. }
  destruct (C46_evaluates F Err fo e P ws Hm ts) as [(n & Hs & k & Hk)|(Hs & k & Hk)]; exists (S (max (length line) k)); intros k' Hk'.
  - left. exists n. split; auto. destruct (Hpre k') as (es & H1 & H2); [lia|]. unfold calc_line. rewrite H1. cbn [bind]. rewrite H2. cbn [bind].
    rewrite (Hmono _ k k' Hk) by lia. reflexivity.
  - right. split; auto. destruct (Hpre k') as (es & H1 & H2); [lia|]. unfold calc_line. rewrite H1. cbn [bind]. rewrite H2. cbn [bind].
    rewrite (Hmono _ k k' Hk) by lia. reflexivity.
Qed.
Print Assumptions C48_line.
(** every turn of the loop handles its own line, whatever the other lines are; the loop never ends
    by itself: for every [n] it gets through [n] turns.  After the last line the lines are empty. *)
Theorem C48_loop : forall F PErr Err (fo : floats F) (parse : string -> hir + PErr) env fuel t tws e P ws,
  parses_wf parse -> parsed parse (calc_patterns fo) calc_hirs -> env_ok env -> build_tokenizer fo parse env fuel = BOk (t, tws) ->
  makes e (@calc_syntax F fo Err) P ws -> parses_numbers fo ->
  forall n lines, exists K, forall fuel', K <= fuel' ->
    exists outs, calc_loop t P fuel' n lines = Ok outs /\ length outs = n /\
      forall i o, nth_error outs i = Some o -> exists ts, lexes fo (nth i lines []) ts /\
        ((exists v, is_sum fo ts v /\ o = PNumber v) \/ ((forall v, ~ is_sum fo ts v) /\ o = PError RNotFound)).
Proof.
  intros F PErr Err fo parse env fuel t tws e P ws W Hp He Hb Hm Hn n. induction n as [|n IH]; intros lines.
  - exists 0. intros k _. exists []. split; auto. split; auto. intros [|i] o Hi; discriminate.
  - destruct (IH (tl lines)) as [K1 H1]. destruct (C48_line F PErr Err fo parse env fuel t tws e P ws W Hp He Hb Hm Hn (hd [] lines)) as (ts & Hl & K2 & H2).
    exists (max K1 K2). intros k Hk. destruct (H1 k) as (outs & A1 & A2 & A3); [lia|].
    assert (G : exists o, calc_line t P k (hd [] lines) = Ok o /\ ((exists v, is_sum fo ts v /\ o = PNumber v) \/ ((forall v, ~ is_sum fo ts v) /\ o = PError RNotFound))).
    { destruct (H2 k) as [(v & B1 & B2)|[B1 B2]]; [lia|exists (PNumber v); eauto|exists (PError RNotFound); auto]. }
    destruct G as (o & G1 & G2). exists (o :: outs). cbn [calc_loop]. rewrite G1. cbn [bind]. rewrite A1. cbn [bind]. split; auto. split; [simpl; auto|].
    intros [|i] o' Hi; cbn [nth_error] in Hi.
    + injection Hi as <-. exists ts. split; auto. destruct lines; exact Hl.
    + destruct (A3 i o' Hi) as (ts' & C1 & C2). exists ts'. split; auto. destruct lines; [destruct i|]; exact C1.
Qed.
Print Assumptions C48_loop.

(** ** A concrete calculator: integers instead of floating point numbers *)
Definition ints : floats Z := mk_floats Z 0%Z Z.add Z.sub Z.mul Z.div Z.opp Z.sqrt
  (fun w => Some (fold_left (fun a c => 10 * a + (Z.of_N c - 48))%Z w 0%Z)).
Lemma ints_parse : parses_numbers ints.
Proof. intros w _. discriminate. Qed.
Definition regex (p : string) : hir + unit :=
  match find (fun x => String.eqb (fst x) p) (combine (map fst (calc_patterns ints)) calc_hirs) with Some x => inl (snd x) | None => inr tt end.
Lemma regex_wf : parses_wf regex.
Proof.
  intros p h. unfold regex. destruct (find _ _) as [x|] eqn:E; intros H; inversion H; subst. apply find_some in E as [E _].
  pose proof hirs_wf as Hw. rewrite Forall_forall in Hw. apply Hw. destruct x as [a b]. eapply in_combine_r; eauto.
Qed.
Lemma regex_parsed : parsed regex (calc_patterns ints) calc_hirs.
Proof. repeat constructor. Qed.
Definition text (s : string) : list N := map N_of_ascii (list_ascii_of_string s).
Definition the_tokenizer : calc_tokenizer := match build_tokenizer ints regex unlucky_env 1000 with BOk (t, _) => t | _ => mk_tok [] 0 [] [] end.
Definition the_parser : @calc_parser Z nat := match lr1_new env0 1000 (calc_syntax ints) with Ok (P, _) => P | _ => mk_lr1 (mk_parser [] [] [] [] 0) [] end.
Example C46_example : makes env0 (calc_syntax ints) the_parser [] /\ is_sum ints [Number 1; Sub; Number 2; Mul; Bracket; Sub; Number 3; CloseBracket]%Z 7%Z /\
  returns token_index the_parser [Number 1; Sub; Number 2; Mul; Bracket; Sub; Number 3; CloseBracket]%Z (ROk (Sum (Some 7%Z))).
Proof.
  split; [split; [apply env0_ok|]; exists 1000; vm_compute; reflexivity|]. split; [|exists 1000; vm_compute; reflexivity].
  apply (sum_sub ints [Number 1%Z] [Number 2%Z; Mul; Bracket; Sub; Number 3%Z; CloseBracket] 1%Z (-6)%Z); [repeat constructor|].
  apply (product_mul ints [Number 2%Z] [Bracket; Sub; Number 3%Z; CloseBracket] 2%Z (-3)%Z); [repeat constructor|].
  apply (block_bracket ints [Sub; Number 3%Z] (-3)%Z). constructor. constructor. apply (block_minus ints 3%Z).
Qed.
Example C47_example : env_ok unlucky_env /\ exists ws, build_tokenizer ints regex unlucky_env 1000 = BOk (the_tokenizer, ws).
Proof. split; [apply unlucky_ok|]. eexists. vm_compute. reflexivity. Qed.
Example C48_example : calc_loop the_tokenizer the_parser 1000 4 (map text ["1 - 2*(-3)"; "sqrt 16+7"; "2 3"]%string) = Ok [PNumber 7%Z; PNumber 11%Z; PError RNotFound; PError RNotFound].
Proof. vm_compute. reflexivity. Qed.
