(** C87: the integers of a build stay within `u32`. *)
From Verif Require Import Lib Hir NfaModel DfaModel DfaEdges MinModel TokModel TokTop TokMore TokExamples PropBuild IntModel IntProofs.

(** [w] says whether overflow wraps around or panics: the build does the same either way, and the same as with unbounded numbers *)
Theorem C87_build : forall E T P PErr (parse : P -> hir + PErr) w env fuel (patterns : list (P * (list N -> list T -> E))),
  parses_wf parse -> build32 w P PErr parse env fuel patterns = build P PErr parse env fuel patterns.
Proof. intros. apply build32_eq. auto. Qed.
Print Assumptions C87_build.

(** in particular compiling with or without overflow checks makes no difference, and no build panics *)
Theorem C87_no_panic : forall E T P PErr (parse : P -> hir + PErr) env fuel (patterns : list (P * (list N -> list T -> E))),
  parses_wf parse -> env_ok env ->
  build32 false P PErr parse env fuel patterns = build32 true P PErr parse env fuel patterns /\ build32 false P PErr parse env fuel patterns <> BPanic.
Proof. intros E T P PErr parse env fuel patterns Hw He. rewrite !(C87_build _ _ _ _ parse) by auto. split; [reflexivity|]. apply mono_any; auto. Qed.
Print Assumptions C87_no_panic.

(** every range of a built table is a non-empty range of Unicode, and `{:?}` shows its first and its last character without overflow *)
Theorem C87_ranges : forall E T P PErr (parse : P -> hir + PErr) env fuel (patterns : list (P * (list N -> list T -> E))) t ws,
  parses_wf parse -> env_ok env -> build P PErr parse env fuel patterns = BOk (t, ws) ->
  forall i nd first past j, nth_error (tk_goto t) i = Some nd -> In ((first, past), j) nd ->
    (first < past <= 0x110000)%N /\ forall w, debug_range w (first, past) = Some (if (past =? first + 1)%N then inl first else inr (first, past - 1)%N).
Proof.
  intros E T P PErr parse env fuel patterns t ws Hw He Hb i nd first past j Hn Hin.
  destruct (build_inv P PErr parse _ _ _ _ _ Hw He Hb) as (hs & F & A & B & C & D).
  pose proof (bt_ranges _ _ _ _ C i nd Hn) as [Hr _]. rewrite Forall_forall in Hr. specialize (Hr _ Hin). cbn [fst snd] in Hr.
  pose proof (build_fit parse Hw _ _ _ _ _ Hb) as Hf. unfold ends_fit in Hf. rewrite Forall_forall in Hf. specialize (Hf nd (nth_error_In _ _ Hn)).
  rewrite Forall_forall in Hf. specialize (Hf _ Hin). cbn [fst snd] in Hf. unfold max_char in Hf. split; [lia|].
  intros w. unfold debug_range. cbn [fst snd]. rewrite !sub32_ok by lia. cbn [option_map].
  destruct (N.eqb_spec (past - first) 1), (N.eqb_spec past (first + 1)); auto; lia.
Qed.
Print Assumptions C87_ranges.

(** the condition on the expressions is needed: past Unicode the two ways of compiling differ *)
Definition h_past : hir := HLitU 0xFFFFFFFF%N.
Theorem C87_needed : build32 false nat unit (parse_in [h_past]) plain_env 100 (tagged 1) = BPanic /\
  exists t ws, build32 true nat unit (parse_in [h_past]) plain_env 100 (tagged 1) = BOk (t, ws).
Proof. split; [vm_compute; reflexivity|]. eexists _, _. vm_compute. reflexivity. Qed.
Print Assumptions C87_needed.

(** counted repetitions of every kind, the largest character and the class of all of them *)
Definition h_edge : list hir :=
  [HRep (RExactly 3) true (HLitU max_char); HRep (RBounded 1 4) true (cls 97 122); HRep (RBounded 0 2) true (HLitU 48); HRep (RAtLeast 2) true (HLitU 49); HRep (RBounded 2 2) true (cls 0 max_char)]%N.
Lemma h_edge_wf : parses_wf (parse_in h_edge).
Proof.
  unfold parses_wf. apply parse_in_wf. unfold h_edge. repeat (apply Forall_cons; [split; [simpl; auto; lia|]|]); [| | | | |apply Forall_nil]; try (apply wf_cls; apply N.leb_le; reflexivity); simpl; apply N.leb_le; reflexivity.
Qed.
Lemma h_edge_built : exists t ws, build nat unit (parse_in h_edge) plain_env 200 (tagged 5) = BOk (t, ws) /\ existsb (fun nd => existsb (fun x => (snd (fst x) =? 0x110000)%N) nd) (tk_goto t) = true.
Proof. eexists _, _. vm_compute. split; reflexivity. Qed.
Example C87_example : parses_wf (parse_in h_edge) /\ env_ok plain_env /\
  (exists t ws, build32 false nat unit (parse_in h_edge) plain_env 200 (tagged 5) = BOk (t, ws) /\ exists i nd first j, nth_error (tk_goto t) i = Some nd /\ In ((first, 0x110000%N), j) nd) /\
  debug_range false (97, 98)%N = Some (inl 97%N) /\ debug_range false (97, 123)%N = Some (inr (97, 122)%N) /\ debug_range false (98, 97)%N = None.
Proof.
  split; [exact h_edge_wf|]. split; [apply plain_ok|]. split; [|repeat split; reflexivity].
  destruct h_edge_built as (t & ws & Hb & Hx). exists t, ws. rewrite C87_build by exact h_edge_wf. split; [exact Hb|].
  apply existsb_exists in Hx as (nd & Hnd & Hx). apply In_nth_error in Hnd as [i Hi]. apply existsb_exists in Hx as ([[a b] j] & Hin & Hx). apply N.eqb_eq in Hx. cbn [fst snd] in Hx. subst b.
  exists i, nd, a, j. auto.
Qed.
