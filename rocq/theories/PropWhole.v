(** * Property C90: when no part of the text is ignored *)
From Coq Require Import List Arith Lia Bool NArith.
From Verif Require Import Lib Hir NfaPath NfaSem NfaModel NfaProofs NfaExact TokNfa DfaModel DfaEdges DfaProofs DfaTop MinModel MinProofs MinTop TokModel TokSpec TokProofs TokTop TokMore MinSafe TokExamples PropTok PropBuild ActualSpec PropActual ReadSpec
  Grammar LrModel LrSpec LrTop ParseModel Trees ParseSpec ParseTop ParseMore ParseExamples PropParse ExModel ExSpec ExLex PullModel PullSpec PullProofs PropPull.
Import ListNotations.

Lemma first_of_det n L w p q : first_of n L w p -> first_of n L w q -> p = q.
Proof.
  intros (_ & X1 & X2) (_ & Y1 & Y2). destruct (Nat.lt_trichotomy p q) as [Hl|[Hl|Hl]]; auto; exfalso; [eapply Y2|eapply X2]; eauto.
Qed.
(** if no pattern is the first to match then none does *)
Lemma none_first n L w : (forall p, ~ first_of n L w p) -> forall p, p < n -> ~ L p w.
Proof.
  intros H p. induction p as [p IH] using lt_wf_ind. intros Hp HL. apply (H p). split; auto. split; auto. intros p' Hp'. apply IH; lia.
Qed.

Section Whole.
  Context {T : Type} (hirs : list hir) (f : T -> N).
  Hypothesis Hnn : forall h, In h hirs -> ~ matches (actual h) [].
  Let acc := first_of (length hirs) (actual_lang hirs).

  Lemma acc_nonempty p : ~ acc [] p.
  Proof. intros (_ & (h & Hh & Hm) & _). exact (Hnn h (nth_error_In _ _ Hh) Hm). Qed.

  Lemma munch_whole text toks : munch acc f text toks -> (forall x, In x text -> exists h, In h hirs /\ matches (actual h) [f x]) -> written toks = text.
  Proof.
    intros Hm Hc. destruct (munch_concat acc f _ _ Hm) as (rest & Et & Hr). unfold written. destruct rest as [|x rest]; [rewrite app_nil_r in Et; auto|]. exfalso.
    destruct (Hc x) as (h & Hh & Hx); [rewrite Et; apply in_or_app; right; left; auto|]. apply In_nth_error in Hh as (i & Hi).
    assert (Hi' : i < length hirs) by (apply nth_error_Some; congruence).
    apply (none_first (length hirs) (actual_lang hirs) [f x]) with (p := i); auto; [|exists h; auto]. intros p Hp. apply (Hr 1 p); [cbn; lia|exact Hp].
  Qed.

  (** what was read, alone, gives the same tokens *)
  Lemma munch_read text toks : munch acc f text toks -> munch acc f (written toks) toks.
  Proof.
    unfold written. induction 1 as [pend H|pend k p rest HL Hm IH].
    - cbn. constructor. intros k p Hk. assert (k = 0) as -> by (cbn in Hk; lia). apply acc_nonempty.
    - cbn [map concat snd]. destruct HL as (Hk & Ha & Hl).
      assert (E1 : firstn k (firstn k pend ++ concat (map snd rest)) = firstn k pend).
      { rewrite firstn_app, firstn_firstn, Nat.min_id, firstn_length, Nat.min_l by auto. rewrite Nat.sub_diag. cbn. apply app_nil_r. }
      assert (E2 : skipn k (firstn k pend ++ concat (map snd rest)) = concat (map snd rest)).
      { rewrite skipn_app, firstn_length, Nat.min_l, Nat.sub_diag by auto. rewrite skipn_all2 by (rewrite firstn_length; lia). reflexivity. }
      destruct (munch_concat acc f _ _ Hm) as (rr & Er & _).
      assert (E3 : pend = firstn k pend ++ concat (map snd rest) ++ rr) by (rewrite <- Er; symmetry; apply firstn_skipn).
      assert (G : munch acc f (firstn k pend ++ concat (map snd rest)) ((p, firstn k (firstn k pend ++ concat (map snd rest))) :: rest)); [|rewrite E1 in G; exact G].
      apply munch_go; [|rewrite E2; exact IH]. split; [rewrite app_length, firstn_length; lia|]. split; [rewrite E1; exact Ha|].
      intros k' p' Hk'. assert (E4 : firstn k' (firstn k pend ++ concat (map snd rest)) = firstn k' pend).
      { transitivity (firstn k' ((firstn k pend ++ concat (map snd rest)) ++ rr)); [|rewrite <- app_assoc, <- E3; reflexivity].
        rewrite (firstn_app k' (firstn k pend ++ concat (map snd rest)) rr). replace (k' - length (firstn k pend ++ concat (map snd rest))) with 0 by lia. cbn [firstn]. rewrite app_nil_r. reflexivity. }
      rewrite E4. apply Hl. split; [lia|]. apply (f_equal (@length T)) in E3. rewrite !app_length in E3. rewrite app_length in Hk'. lia.
  Qed.
End Whole.

(** The tokens spell every text over some alphabet if and only if every single character of the alphabet is matched by some pattern. *)
Theorem C90_whole_text : forall E T P PErr (parse : P -> hir + PErr) env fuel (patterns : list (P * (list N -> list T -> E))) hirs t ws,
  parses_wf parse -> env_ok env -> env_honest env -> parsed parse patterns hirs -> TokModel.build P PErr parse env fuel patterns = BOk (t, ws) ->
  (forall h, In h hirs -> ~ matches (actual h) []) ->
  forall (f : T -> N) (alphabet : T -> Prop),
  (forall text, Forall alphabet text -> forall fuel', length text < fuel' ->
     exists toks es, munch (first_of (length hirs) (actual_lang hirs)) f text toks /\ written toks = text /\ tok_collect fuel' t f (tokenize_with text) = Ok es /\
       Forall2 (fun e x => exists p m, nth_error patterns (fst x) = Some (p, m) /\ e = m (map f (snd x)) (snd x)) es toks) <->
  (forall x, alphabet x -> exists h, In h hirs /\ matches (actual h) [f x]).
Proof.
  intros E T P PErr parse env fuel ps hirs t ws W O H Hp Hb Hnn f al. split.
  - intros Hw x Hx. destruct (Hw [x] (Forall_cons _ Hx (Forall_nil _)) 2) as (toks & es & Hm & Ht & _); [cbn; lia|].
    inversion Hm as [pend Hn|pend k p rest HL Hm']; subst; [discriminate Ht|]. destruct HL as (Hk & Ha & _).
    destruct k as [|[|k]]; [exfalso; exact (acc_nonempty hirs Hnn p Ha)| |cbn in Hk; lia]. destruct Ha as (_ & (h & Hh & Hma) & _). exists h. split; [eapply nth_error_In; eauto|exact Hma].
  - intros Hc text Ht fuel' Hf. destruct (C56_tokens E T P PErr parse env fuel ps hirs t ws W O H Hp Hb Hnn f text fuel' Hf) as (toks & es & A1 & A2 & A3).
    exists toks, es. split; auto. split; auto. apply (munch_whole hirs f text toks A1). intros x Hx. apply Hc. rewrite Forall_forall in Ht. auto.
Qed.
Print Assumptions C90_whole_text.

(** For the parser the tokens end where nothing matches, as if the text ended there: what follows is ignored.  Every text has a beginning with a rest at which nothing
    matches, such that text.tokenize(tokenizer).parse(parser) does the same for the text and for this beginning. *)
Theorem C90_rest_ignored : forall K T S P PErr (parse : P -> hir + PErr) env fuel0 (patterns : list (P * (list N -> list T -> K))) hirs t tws
  V Err (nix : V -> nat) (tix : K -> nat) e (s : syntax V K Err) Pr ws (pull : S -> res (option T * S)) f,
  parses_wf parse -> env_ok env -> env_honest env -> parsed parse patterns hirs -> TokModel.build P PErr parse env fuel0 patterns = BOk (t, tws) ->
  (forall h, In h hirs -> ~ matches (actual h) []) ->
  api_syntax nix tix s -> makes e s Pr ws ->
  forall src text src', delivers pull src text src' -> over pull src' ->
  exists start rest, text = start ++ rest /\ (forall u v h, rest = u ++ v -> In h hirs -> ~ matches (actual h) (map f u)) /\
    forall src1 src1', delivers pull src1 start src1' -> over pull src1' -> forall fuel1 fuel, length text < fuel1 ->
    (do r <- parse_pull tix (gnext pull (pure_map f) t fuel1) Pr fuel (gtokenize src tt); Ok (fst r)) =
    (do r <- parse_pull tix (gnext pull (pure_map f) t fuel1) Pr fuel (gtokenize src1 tt); Ok (fst r)).
Proof.
  intros K T S P PErr parse env fuel0 ps hirs t tws V Err nix tix e s Pr ws pull f W O H Hp Hb Hnn Ha Hmk src text src' Hd Ho.
  set (acc := first_of (length hirs) (actual_lang hirs)).
  assert (D : forall w p q, acc w p -> acc w q -> p = q) by (intros w p q; apply first_of_det).
  destruct (C59_pipeline _ _ _ _ _ parse env fuel0 ps hirs t tws _ _ nix tix e s Pr ws pull f W O H Hp Hb Hnn Ha Hmk src text src' Hd Ho (Datatypes.S (length text)) (Nat.lt_succ_diag_r _)) as (toks & ks & A1 & A2 & _).
  destruct (munch_concat acc f _ _ A1) as (rest & Et & Hr). exists (written toks), rest. split; [exact Et|]. split.
  - intros u v h -> Hh Hm. apply In_nth_error in Hh as (i & Hi). apply (none_first (length hirs) (actual_lang hirs) (map f u)) with (p := i).
    + intros p Hpp. apply (Hr (length u) p); [rewrite app_length; lia|]. rewrite firstn_app, Nat.sub_diag, firstn_all. cbn. rewrite app_nil_r. exact Hpp.
    + apply nth_error_Some. congruence.
    + exists h. auto.
  - intros src1 src1' Hd1 Ho1 fuel1 fuel Hf.
    destruct (C59_pipeline _ _ _ _ _ parse env fuel0 ps hirs t tws _ _ nix tix e s Pr ws pull f W O H Hp Hb Hnn Ha Hmk src text src' Hd Ho fuel1 Hf) as (toks1 & ks1 & B1 & B2 & B3).
    assert (Hf1 : length (written toks) < fuel1). { apply (f_equal (@length T)) in Et. unfold written. rewrite app_length in Et. lia. }
    destruct (C59_pipeline _ _ _ _ _ parse env fuel0 ps hirs t tws _ _ nix tix e s Pr ws pull f W O H Hp Hb Hnn Ha Hmk src1 (written toks) src1' Hd1 Ho1 fuel1 Hf1) as (toks2 & ks2 & C1 & C2 & C3).
    assert (toks1 = toks) as -> by (eapply munch_det; eauto).
    assert (toks2 = toks) as -> by (eapply (munch_det acc f D); [exact C1|apply (munch_read hirs f Hnn text); exact A1]).
    rewrite B3, C3. f_equal. clear - B2 C2. revert ks2 C2. induction B2 as [|k x ks toks (p & m & Hm & He) _ IH]; intros ks' C2; inversion C2 as [|k' x' ks1 toks1 (p' & m' & Hm' & He')]; subst; auto.
    rewrite Hm in Hm'. injection Hm' as <- <-. f_equal. auto.
Qed.
Print Assumptions C90_rest_ignored.

(** If every character of the text is matched by itself, then the whole text is judged: the tokens spell it, and they are accepted exactly if they are in the language. *)
Theorem C90_whole_judged : forall K T S P PErr (parse : P -> hir + PErr) env fuel0 (patterns : list (P * (list N -> list T -> K))) hirs t tws
  V Err (nix : V -> nat) (tix : K -> nat) e (s : syntax V K Err) Pr (pull : S -> res (option T * S)) f,
  parses_wf parse -> env_ok env -> env_honest env -> parsed parse patterns hirs -> TokModel.build P PErr parse env fuel0 patterns = BOk (t, tws) ->
  (forall h, In h hirs -> ~ matches (actual h) []) ->
  api_syntax nix tix s -> makes e s Pr [] -> error_free s -> productive (gram s) -> (forall ks, total_on tix s ks) ->
  forall src text src', delivers pull src text src' -> over pull src' ->
  (forall x, In x text -> exists h, In h hirs /\ matches (actual h) [f x]) ->
  exists toks ks, munch (first_of (length hirs) (actual_lang hirs)) f text toks /\ written toks = text /\
    Forall2 (fun k x => exists p m, nth_error patterns (fst x) = Some (p, m) /\ k = m (map f (snd x)) (snd x)) ks toks /\
    exists F, forall fuel, F <= fuel ->
      (derivable tix s ks /\ exists v src'', parse_pull tix (gnext pull (pure_map f) t fuel) Pr fuel (gtokenize src tt) = Ok (ROk v, src'')) \/
      (~ derivable tix s ks /\ exists src'', parse_pull tix (gnext pull (pure_map f) t fuel) Pr fuel (gtokenize src tt) = Ok (RNotFound, src'')).
Proof.
  intros K T S P PErr parse env fuel0 ps hirs t tws V Err nix tix e s Pr pull f W O H Hp Hb Hnn Ha Hmk He Hpr Htot src text src' Hd Ho Hc.
  destruct (C59_text_to_value K T S P PErr parse env fuel0 ps hirs t tws V Err nix tix e s Pr pull f W O H Hp Hb Hnn Ha Hmk He Hpr Htot src text src' Hd Ho) as (toks & ks & A1 & A2 & F & A3).
  exists toks, ks. split; auto. split; [apply (munch_whole hirs f text toks A1 Hc)|]. split; auto. exists F. intros fuel Hf.
  destruct (A3 fuel Hf) as [(tr & v & src'' & B1 & _ & B2)|B]; [left|right; exact B]. split; [|eauto]. apply derivable_tree. eauto.
Qed.
Print Assumptions C90_whole_judged.

(** without such patterns the answer is about a beginning of the text only: with the patterns [0-9]+ and \+, the text 12+3@+ is accepted like 12+3 *)
Theorem C90_catch_all_needed : exists v src' src1', 
  parse_pull tkix (gnext pull_list (pure_map snd) sum_tok 100) P_expr 100 (gtokenize (numbered [49; 50; 43; 51; 64; 43]%N) tt) = Ok (ROk v, src') /\
  parse_pull tkix (gnext pull_list (pure_map snd) sum_tok 100) P_expr 100 (gtokenize (numbered [49; 50; 43; 51]%N) tt) = Ok (ROk v, src1') /\
  (forall h, In h sum_hirs -> ~ matches (actual h) [64]%N) /\
  (exists src2', parse_pull tkix (gnext pull_list (pure_map snd) sum_tok 100) P_expr 100 (gtokenize (numbered [49; 50; 43; 51; 43]%N) tt) = Ok (RNotFound, src2')).
Proof.
  do 3 eexists. split; [vm_compute; reflexivity|]. split; [vm_compute; reflexivity|]. split; [|eexists; vm_compute; reflexivity].
  assert (W : Forall wf_hir sum_hirs). { repeat constructor; cbn; try discriminate; auto; lia. }
  assert (S0 : Forall supported sum_hirs) by (repeat constructor; apply first_err_none; reflexivity).
  intros h Hh Hm. rewrite Forall_forall in W, S0. pose proof (proj2 (C56_compared h (W _ Hh) (S0 _ Hh))) as Hx.
  assert (He : exact_hir h = true) by (destruct Hh as [<-|[<-|[]]]; reflexivity). specialize (Hx He _ Hm). clear - Hh Hx.
  destruct Hh as [<-|[<-|[]]]; [|discriminate Hx]. cbn in Hx. destruct Hx as (n & Hx). destruct n; [cbn in Hx; lia|]. destruct Hx as (Hn & a & b & Ha & (c & -> & lo & hi & Hin & Hc) & _).
  injection Ha as <- _. destruct Hin as [E|[]]. injection E as <- <-. lia.
Qed.
Print Assumptions C90_catch_all_needed.

(** The calculator's patterns match every single character; those of the sums match the digits and the plus sign.  The hypotheses about the
    build, the grammar and the iterator are met as in C59_example. *)
Example C90_example :
  (forall c, (c <= max_char)%N -> exists h, In h calc_hirs /\ matches (actual h) [c]) /\
  (forall c, (c = 43 \/ 48 <= c <= 57)%N -> exists h, In h sum_hirs /\ matches (actual h) [c]).
Proof.
  split; intros c Hc.
  - exists (HAlt [HClassU [(0, 9); (11, max_char)]%N; HLitU 10%N]). assert (Hin : In (HAlt [HClassU [(0, 9); (11, max_char)]%N; HLitU 10%N]) calc_hirs) by (do 8 right; left; reflexivity).
    split; [exact Hin|]. pose proof hirs_wf as W. pose proof hirs_sup as S0. rewrite Forall_forall in W, S0. apply (proj1 (C56_compared _ (W _ Hin) (S0 _ Hin))).
    cbn. destruct (N.eq_dec c 10) as [->|Hn]; [right; left; reflexivity|]. left. exists c. split; auto. destruct (N.lt_ge_cases c 10); [exists 0%N, 9%N|exists 11%N, max_char]; (split; [cbn; auto|lia]).
  - assert (W : Forall wf_hir sum_hirs). { repeat constructor; cbn; try discriminate; auto; lia. }
    assert (S0 : Forall supported sum_hirs) by (repeat constructor; apply first_err_none; reflexivity). rewrite Forall_forall in W, S0.
    destruct Hc as [->|Hc]; [exists (HLitU 43)|exists h_num]; (split; [cbn; auto|]).
    + apply (proj1 (C56_compared (HLitU 43) (W _ (or_intror (or_introl eq_refl))) (S0 _ (or_intror (or_introl eq_refl))))). reflexivity.
    + apply (proj1 (C56_compared h_num (W _ (or_introl eq_refl)) (S0 _ (or_introl eq_refl)))). exists 1. split; [lia|]. exists [c], []. split; [reflexivity|]. split; [exists c; split; auto; exists 48%N, 57%N; split; [cbn; auto|lia]|reflexivity].
Qed.
