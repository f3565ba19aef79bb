(** * Patterns do not influence each other.  C49.
    A tokenizer for several patterns behaves as the tokenizers for the single patterns say, for all
    patterns (also those for which a pattern alone does not accept exactly its regular language, see C06). *)
From Coq Require Import List Arith Lia NArith.
From Verif Require Import Lib Hir NfaPath NfaSem NfaModel NfaProofs NfaExact TokNfa DfaModel DfaEdges DfaProofs DfaTop MinModel MinProofs MinTop TokModel TokSpec TokProofs TokTop TokMore MinSafe TokExamples PropTok PropBuild.
Import ListNotations.

(** [alone i] is a tokenizer built, in any other run, from the [i]-th pattern only *)
Definition built_alone {E T E' T' P PErr} (parse : P -> hir + PErr) (patterns : list (P * (list N -> list T -> E))) (alone : nat -> tokenizer E' T') : Prop :=
  forall i p m, nth_error patterns i = Some (p, m) ->
    exists env fuel m' ws, env_ok env /\ env_honest env /\ build P PErr parse env fuel [(p, m')] = BOk (alone i, ws).
(** what the [i]-th pattern accepts when it is alone *)
Definition accepts_alone {E T} (alone : nat -> tokenizer E T) (i : nat) : lang := fun w => tok_accepts (alone i) w 0.

Lemma alone_lang {E T E' T' P PErr} (parse : P -> hir + PErr) (ps : list (P * (list N -> list T -> E))) (alone : nat -> tokenizer E' T') hirs :
  parses_wf parse -> parsed parse ps hirs -> built_alone parse ps alone ->
  forall i w, i < length hirs -> (pat_lang hirs i w <-> accepts_alone alone i w).
Proof.
  intros W Hp Ha i w Hi. assert (Hi' : i < length ps) by (rewrite (Forall2_len _ _ _ Hp); auto).
  destruct (nth_error ps i) as [[p m]|] eqn:Ei; [|apply nth_error_None in Ei; lia].
  destruct (nth_error hirs i) as [h|] eqn:Eh; [|apply nth_error_None in Eh; lia].
  assert (Hph : parse p = inl h).
  { clear -Hp Ei Eh. revert i Ei Eh. induction Hp as [|x y l l' Hxy Hl IH]; intros [|i] Ei Eh; simpl in *; try discriminate; eauto.
    inversion Ei; inversion Eh; subst. exact Hxy. }
  destruct (Ha i p m Ei) as (env & fuel & m' & ws & He & Hh & Hb).
  assert (Hp1 : parsed parse [(p, m')] [h]) by (repeat constructor; auto).
  destruct (inv parse W env fuel _ _ _ ws He Hp1 Hb) as (_ & _ & B & _). unfold accepts_alone. rewrite (bt_accept _ _ _ _ B Hh w 0).
  split.
  - intros (h' & H1 & H2). rewrite Eh in H1. inversion H1; subst h'. split; [simpl; auto|]. split; [exists h; auto|]. intros q Hq. lia.
  - intros (_ & (h' & H1 & H2) & _). simpl in H1. inversion H1; subst h'. exists h. auto.
Qed.

(** C49: the pattern of a text is the first one that accepts it alone *)
Theorem C49_accepts : forall E T E' T' P PErr (parse : P -> hir + PErr) env fuel (patterns : list (P * (list N -> list T -> E))) t ws (alone : nat -> tokenizer E' T'),
  parses_wf parse -> env_ok env -> env_honest env -> build P PErr parse env fuel patterns = BOk (t, ws) -> built_alone parse patterns alone ->
  forall w i, tok_accepts t w i <-> first_of (length patterns) (accepts_alone alone) w i.
Proof.
  intros E T E' T' P PErr parse env fuel ps t ws alone W O H Hb Ha w i.
  destruct (build_inv P PErr parse _ _ _ _ _ W O Hb) as (hirs & Hp & _).
  assert (Hp' : parsed parse ps hirs) by exact Hp.
  destruct (inv parse W env fuel _ _ t ws O Hp' Hb) as (_ & _ & B & _). rewrite (bt_accept _ _ _ _ B H w i).
  pose proof (alone_lang parse ps alone hirs W Hp' Ha) as G. rewrite (Forall2_len _ _ _ Hp').
  split; intros (A & C & D); (split; [auto|split; [apply G; auto|intros p' Hq Hc; apply (D p' Hq), G; auto; lia]]).
Qed.
Print Assumptions C49_accepts.

(** the warnings are exactly the overlaps; whatever the hash seeds of this build were *)
Theorem C49_warnings : forall E T E' T' P PErr (parse : P -> hir + PErr) env fuel (patterns : list (P * (list N -> list T -> E))) t ws (alone : nat -> tokenizer E' T'),
  parses_wf parse -> env_ok env -> build P PErr parse env fuel patterns = BOk (t, ws) -> built_alone parse patterns alone ->
  forall j i, In (j, i) ws <-> j < length patterns /\ i < j /\
    exists w, accepts_alone alone j w /\ accepts_alone alone i w /\ forall p, i < p < j -> ~ accepts_alone alone p w.
Proof.
  intros E T E' T' P PErr parse env fuel ps t ws alone W O Hb Ha j i.
  destruct (build_inv P PErr parse _ _ _ _ _ W O Hb) as (hirs & Hp & _).
  assert (Hp' : parsed parse ps hirs) by exact Hp.
  destruct (inv parse W env fuel _ _ t ws O Hp' Hb) as (_ & _ & _ & Hg & _). rewrite (Hg j i).
  pose proof (alone_lang parse ps alone hirs W Hp' Ha) as G. rewrite (Forall2_len _ _ _ Hp').
  split; intros (A & B & w & C & D & F); (split; [auto|split; [auto|]]); exists w; (split; [apply G; auto|split; [apply G; auto; lia|]]);
    intros p Hpp Hq; apply (F p Hpp); apply G; auto; lia.
Qed.
Print Assumptions C49_warnings.

(** the tokens of an input: maximal munch over the single tokenizers *)
Theorem C49_tokens : forall E T E' T' P PErr (parse : P -> hir + PErr) env fuel (patterns : list (P * (list N -> list T -> E))) t ws (alone : nat -> tokenizer E' T'),
  parses_wf parse -> env_ok env -> env_honest env -> build P PErr parse env fuel patterns = BOk (t, ws) -> built_alone parse patterns alone ->
  (forall i, i < length patterns -> ~ accepts_alone alone i []) ->
  forall f input fuel', length input < fuel' ->
  exists toks es, munch (first_of (length patterns) (accepts_alone alone)) f input toks /\ tok_collect fuel' t f (tokenize_with input) = Ok es /\
    Forall2 (fun e x => exists p m, nth_error patterns (fst x) = Some (p, m) /\ e = m (map f (snd x)) (snd x)) es toks.
Proof.
  intros E T E' T' P PErr parse env fuel ps t ws alone W O H Hb Ha Hnn f input fuel' Hf.
  destruct (build_inv P PErr parse _ _ _ _ _ W O Hb) as (hirs & Hp & _).
  destruct (inv parse W env fuel ps hirs t ws O Hp Hb) as (_ & _ & B & _ & Ht).
  pose proof (C49_accepts E T E' T' P PErr parse env fuel ps t ws alone W O H Hb Ha) as Hacc.
  destruct (tok_collect_terminates t f Ht (tokenize_with input) fuel') as (es & toks & A1 & A2 & A3 & _); auto.
  { intros p Hq. apply Hacc in Hq as (A & B' & _). eapply Hnn; eauto. }
  exists toks, es. split; [eapply munch_ext; eauto|]. split; auto.
  clear -A3 B. induction A3 as [|e x l l' (m & Hm & Hx) Hl IH]; constructor; auto.
  rewrite (bt_makers _ _ _ _ B), nth_error_map in Hm. destruct (nth_error ps (fst x)) as [[p m']|] eqn:Ei; simpl in Hm; inversion Hm; subst m'. eauto.
Qed.
Print Assumptions C49_tokens.

(** (ab* )? and b: the first pattern accepts "b" although its expression does not match it; so it gets
    the token, and there is a warning *)
Definition opt_b : list hir := [h_opt; HLitU 98%N].
Definition one (i : nat) : tokenizer (nat * list N * list (nat * N)) (nat * N) :=
  match build nat unit (parse_in opt_b) plain_env 100 [(i, tag i)] with BOk (t, _) => t | _ => mk_tok [] 0 [] [] end.
Example C49_example : built_alone (parse_in opt_b) (tagged 2) one /\
  accepts_alone one 0 [98]%N /\ accepts_alone one 1 [98]%N /\ exists t, build nat unit (parse_in opt_b) plain_env 100 (tagged 2) = BOk (t, [(1, 0)]).
Proof.
  split.
  - intros i p m Hi. assert (Hi' : i < 2) by (apply nth_error_Some_lt in Hi; exact Hi).
    exists plain_env, 100, (tag i). destruct i as [|[|i]]; [| |lia]; vm_compute in Hi; inversion Hi; subst p;
      eexists; (split; [apply (proj1 plain_ok)|split; [apply (proj2 plain_ok)|vm_compute; reflexivity]]).
  - split; [eexists; split; vm_compute; reflexivity|]. split; [eexists; split; vm_compute; reflexivity|]. eexists. vm_compute. reflexivity.
Qed.
