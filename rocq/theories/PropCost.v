(** * C68: how much work tokenizing is
    The closure of [tokenize_with] is called once for every item that a call looks at.  Here it counts its calls. *)
From Coq Require Import List Arith Lia NArith.
From Verif Require Import Lib Hir NfaPath NfaSem NfaModel NfaProofs NfaCorrect NfaTop NfaExact NfaLive TokNfa DfaModel DfaEdges DfaProofs DfaTop MinModel MinProofs MinTop TokModel TokSpec TokProofs TokTop TokMore MinSafe TokExamples PropTok PropBuild PullModel PullSpec PullProofs PropPull TokLive PropLook.
Import ListNotations.

(** a closure that computes [f] and counts its calls *)
Definition count_calls {T} (f : T -> N) (n : nat) (x : T) : res (N * nat) := Ok (f x, S n).

Section Cost.
  Context {E T : Type} (f : T -> N) (t : tokenizer E T).
  Hypothesis Ht : tok_ok t.
  Hypothesis Hnil : forall p, ~ tok_accepts t [] p.
  Notation giter := (giter T (list T) nat).
  Definition gleft (g : giter) : nat := length (gi_queue g) + length (gi_src g).

  Lemma mapped_count m l cs m' : mapped (count_calls f) m l cs m' -> m' = m + length l /\ length cs = length l.
  Proof. induction 1 as [m|m x c m1 l cs m2 Hc H IH]; simpl; [lia|]. inversion Hc; subst. lia. Qed.
  Lemma pulls_list (l u l' : list T) : pulls pull_list l u l' -> l = u ++ l'.
  Proof. induction 1 as [s|s x s1 l s2 H1 H2 IH]; auto. destruct s as [|y s]; [discriminate|]. simpl in H1. injection H1 as -> ->. simpl. rewrite <- IH. reflexivity. Qed.
  Lemma delivers_list (l u l' : list T) : delivers pull_list l u l' -> l = u /\ l' = [].
  Proof. intros (s1 & H1 & H2). apply pulls_list in H1. destruct s1; inversion H2; subst. rewrite app_nil_r. auto. Qed.

  Lemma step_count fuel g o g' : gnext pull_list (count_calls f) t fuel g = Ok (o, g') ->
    exists cs, gi_map g' = gi_map g + length cs /\ length cs <= gleft g /\ (forall k, k < length cs -> tok_run t (firstn k cs) <> None) /\
      match o with
      | Some e => exists k p, 0 < k <= length cs /\ tok_accepts t (firstn k cs) p /\ (forall k' p', k < k' <= length cs -> ~ tok_accepts t (firstn k' cs) p') /\ gleft g' + k = gleft g
      | None => forall k p, k <= length cs -> ~ tok_accepts t (firstn k cs) p
      end.
  Proof.
    intros H. pose proof (gnext_ok pull_list (count_calls f) t Ht fuel g) as G. rewrite H in G.
    destruct G as (q1 & q2 & u & cs & Hq & Hqu & Hm & Hal & Hst & Ho). apply mapped_count in Hm as [Hm Hl]. exists cs. unfold gleft.
    assert (Hs : exists l', gi_src g = u ++ l' /\ gi_src g' = l').
    { destruct Hst as [[_ Hp]|(_ & _ & Hp)]; [apply pulls_list in Hp; eauto|]. apply delivers_list in Hp as [-> ->]. exists []. rewrite app_nil_r. auto. }
    destruct Hs as (l' & Hs & Hs'). split; [lia|]. split; [rewrite Hq, Hs, Hl, !app_length; lia|]. split; auto. destruct o as [e|].
    - destruct Ho as (k & p & m & K1 & K2 & K3 & _ & _ & K4). exists k, p. split.
      + split; auto. destruct k; [|lia]. exfalso. apply (Hnil p). exact K2.
      + split; auto. split; auto. rewrite K4, Hq, Hs, Hs', !app_length, skipn_length, app_length. rewrite app_length in Hl. lia.
    - apply Ho.
  Qed.

  Lemma quadratic_left fuel es : forall g g', delivers (gnext pull_list (count_calls f) t fuel) g es g' ->
    2 * gi_map g' <= 2 * gi_map g + gleft g * (gleft g + 1) /\ length es <= gleft g.
  Proof.
    induction es as [|e es IH]; intros g g' (s1 & H1 & H2); inversion H1 as [x|x y s0 l z H3 H4]; subst.
    - apply step_count in H2 as (cs & A & B & _). split; [nia|simpl; lia].
    - destruct (step_count _ _ _ _ H3) as (cs & A & B & _ & (k & p & K & _ & _ & L)). destruct (IH s0 g') as [C D]; [eexists; eauto|].
      split; [nia|simpl; lia].
  Qed.

  (** after the longest match, at most [b] more items can be read before the automaton is stuck *)
  Definition backs (b : nat) : Prop := forall w, tok_run t w <> None -> length w <= b \/ exists k p, k <= length w <= k + b /\ tok_accepts t (firstn k w) p.
  Lemma linear_left b fuel es : backs b -> forall g g', delivers (gnext pull_list (count_calls f) t fuel) g es g' ->
    gi_map g' <= gi_map g + gleft g + (b + 1) * (length es + 1).
  Proof.
    intros Hb.
    assert (Hcs : forall cs, (forall k, k < length cs -> tok_run t (firstn k cs) <> None) ->
      length cs <= b + 1 \/ exists k p, k <= length cs <= k + b + 1 /\ tok_accepts t (firstn k cs) p).
    { intros cs Ha. destruct (length cs) as [|n] eqn:En; [lia|]. destruct (Hb (firstn n cs)) as [H|(k & p & H1 & H2)]; [apply Ha; lia| |]; rewrite firstn_length in *.
      - left. lia.
      - right. exists k, p. split; [lia|]. rewrite firstn_firstn, Nat.min_l in H2 by lia. auto. }
    induction es as [|e es IH]; intros g g' (s1 & H1 & H2); inversion H1 as [x|x y s0 l z H3 H4]; subst.
    - apply step_count in H2 as (cs & A & B & C & D). destruct (Hcs cs C) as [H|(k & p & H5 & H6)]; [simpl; lia|]. exfalso. eapply D; [|exact H6]. lia.
    - destruct (step_count _ _ _ _ H3) as (cs & A & B & C & (k & p & K & _ & D & L)). specialize (IH s0 g'). assert (gi_map g' <= gi_map s0 + gleft s0 + (b + 1) * (length es + 1)) by (apply IH; eexists; eauto).
      assert (length cs <= k + b + 1).
      { destruct (Hcs cs C) as [H5|(k' & p' & H5 & H6)]; [lia|]. destruct (Nat.le_gt_cases k' k); [lia|]. exfalso. eapply (D k'); [lia|exact H6]. }
      simpl. nia.
  Qed.
End Cost.

(** the iterator is exhausted: until [None], the tokens [es] are made; [calls] is the number of calls of the closure *)
Definition exhausts {E T} (t : tokenizer E T) (f : T -> N) (text : list T) (es : list E) (calls : nat) : Prop :=
  exists fuel g', delivers (gnext pull_list (count_calls f) t fuel) (gtokenize text 0) es g' /\ gi_map g' = calls.

(** C68: tokenizing a text of [n] items looks at items at most n(n+1)/2 times *)
Theorem C68_quadratic : forall E T (t : tokenizer E T) (f : T -> N), tok_ok t -> (forall p, ~ tok_accepts t [] p) ->
  forall text, (exists es calls, exhausts t f text es calls) /\
  forall es calls, exhausts t f text es calls -> 2 * calls <= length text * (length text + 1) /\ length es <= length text.
Proof.
  intros E T t f Ht Hnil text. split.
  - assert (R : forall g : giter T (list T) nat, gleft g <= length text -> exists r, gnext pull_list (count_calls f) t (S (length text)) g = Ok r).
    { intros g Hg. apply (C58_returns E T (list T) nat pull_list (count_calls f) t Ht) with (l := gi_src g) (src' := []).
      - intros [|? ?]; simpl; eauto.
      - intros. unfold count_calls. eauto.
      - exists []. split; [|reflexivity]. clear Hg. induction (gi_src g); econstructor; simpl; eauto.
      - unfold gleft in Hg. lia. }
    assert (G : forall n g, gleft g <= n -> gleft g <= length text -> exists es g', delivers (gnext pull_list (count_calls f) t (S (length text))) g es g').
    { induction n as [|n IH]; intros g Hn Hl; destruct (R g Hl) as ([[e|] g'] & Hr).
      - destruct (step_count f t Ht Hnil _ _ _ _ Hr) as (cs & _ & B & _ & (k & p & K & _)). lia.
      - exists [], g', g. split; [constructor|auto].
      - destruct (step_count f t Ht Hnil _ _ _ _ Hr) as (cs & _ & B & _ & (k & p & K & _ & _ & L)). destruct (IH g') as (es & g2 & s1 & H1 & H2); [lia|lia|].
        exists (e :: es), g2, s1. split; auto. econstructor; eauto.
      - exists [], g', g. split; [constructor|auto]. }
    destruct (G (length text) (gtokenize text 0)) as (es & g' & H); auto. exists es, (gi_map g'), (S (length text)), g'. auto.
  - intros es calls (fuel & g' & H & <-). apply (quadratic_left f t Ht Hnil) in H as [A B]. unfold gleft in *. simpl in *. auto.
Qed.
Print Assumptions C68_quadratic.

(** If every text that is the beginning of a match is at most [b] items longer than a match it begins with (or than the empty text), the work is
    linear: once for every item, and [b + 1] times more for every token and for the end *)
Theorem C68_linear : forall E T P PErr (parse : P -> hir + PErr) env fuel (patterns : list (P * (list N -> list T -> E))) hirs t ws b,
  parses_wf parse -> env_ok env -> env_honest env -> parsed parse patterns hirs -> build P PErr parse env fuel patterns = BOk (t, ws) ->
  patterns <> [] -> forallb lively hirs = true -> (forall p, ~ tok_accepts t [] p) ->
  (forall w v p, tok_accepts t (w ++ v) p -> length w <= b \/ exists k p', k <= length w <= k + b /\ tok_accepts t (firstn k w) p') ->
  forall f text es calls, exhausts t f text es calls -> calls <= length text + (b + 1) * (length es + 1).
Proof.
  intros E T P PErr parse env fuel patterns hirs t ws b H1 H2 H3 H4 H5 H6 H7 Hnil Hb f text es calls (fu & g' & H & <-).
  assert (Hh : hirs <> []) by (intros ->; inversion H4; subst; auto; destruct patterns; auto; discriminate).
  assert (Ht : tok_ok t) by apply (inv parse H1 _ _ _ _ _ _ H2 H4 H5).
  assert (Hbk : backs t b).
  { intros w Hw. apply (alive_iff E T P PErr parse env fuel patterns hirs t ws H1 H2 H3 H4 H5 Hh H7) in Hw as (v & p & Hw). eapply Hb; eauto. }
  apply (linear_left f t Ht Hnil b fu es Hbk) in H. unfold gleft in H. simpl in H. auto.
Qed.
Print Assumptions C68_linear.

(** The hypotheses of C68_linear hold of the demo tokenizer (if, identifiers, numbers, blanks) with [b] = 0: every beginning of a match is a match. *)
Lemma accepting_targets {E T} (t : tokenizer E T) :
  forallb (fun m => forallb (fun kv => match accept_index t (snd kv) with Some _ => true | None => false end) m) (tk_goto t) = true ->
  forall w n, w <> [] -> tok_run t w = Some n -> exists p, tok_accepts t w p.
Proof.
  intros H w n Hw Hr. destruct (exists_last Hw) as (w0 & c & ->).
  assert (exists m, tok_run t w0 = Some m) as [m Hm].
  { destruct (tok_run t w0) as [m|] eqn:E0; [eauto|]. exfalso. apply (run_prefix t w0 [c]); congruence. }
  pose proof Hr as Hr0. rewrite (tok_run_app t _ _ _ Hm) in Hr. cbn [drun] in Hr. unfold dnext in Hr. destruct (nth_error (tk_goto t) m) as [nd|] eqn:End; [|discriminate].
  destruct (lookup c nd) as [n'|] eqn:El; [|discriminate]. inversion Hr; subst n'. rewrite forallb_forall in H. apply nth_error_In in End. specialize (H _ End). rewrite forallb_forall in H.
  assert (Hin : exists r, In (r, n) nd).
  { unfold lookup in El. destruct (next_back c nd) as [[r v]|] eqn:E0; [|discriminate]. destruct (N.ltb c (snd r)); [|discriminate]. inversion El; subst.
    apply next_back_In in E0 as [E0 _]. eauto. }
  destruct Hin as [r Hin]. specialize (H _ Hin). cbn [snd] in H. unfold accept_index in H. destruct (aget Nat.eqb n (tk_end t)) as [p|] eqn:Ep; [|discriminate]. exists p, n. auto.
Qed.

Example C68_linear_example : exists t ws, build nat unit (parse_in demo_hirs) plain_env 100 (tagged 4) = BOk (t, ws) /\ parsed (parse_in demo_hirs) (tagged 4) demo_hirs /\
  forallb lively demo_hirs = true /\ (forall p, ~ tok_accepts t [] p) /\
  (forall w v p, tok_accepts t (w ++ v) p -> length w <= 0 \/ exists k p', k <= length w <= k + 0 /\ tok_accepts t (firstn k w) p') /\
  exists es, exhausts t snd (numbered demo_text) es 14 /\ length es = 5.
Proof.
  exists demo_tok, demo_ws. split; [exact demo_built|]. split; [repeat constructor|]. split; [reflexivity|]. split; [exact C05_example|]. split.
  - intros w v p (n & Hn & _). destruct w as [|c w]; [left; auto|]. right.
    destruct (tok_run demo_tok (c :: w)) as [m|] eqn:Em; [|exfalso; eapply (run_prefix demo_tok (c :: w) v); [|exact Em]; congruence].
    destruct (accepting_targets demo_tok) with (w := c :: w) (n := m) as [q Hq]; [vm_compute; reflexivity|discriminate|auto|].
    exists (length (c :: w)), q. rewrite firstn_all. split; [lia|auto].
  - eexists. split; [exists 100; eexists; split; [|]|].
    + eexists. split; [repeat (eapply pulls_cons; [vm_compute; reflexivity|]); apply pulls_nil|]. vm_compute. reflexivity.
    + reflexivity.
    + reflexivity.
Qed.

(** The work is not linear for all patterns: with a and a*b, on a text of [n] times a, it is exactly n(n+1)/2, for every [n].  So the bound of
    C68_quadratic is attained. *)
Definition h_slow : list hir := [HLitU 97; HConcat [HRep RZeroOrMore true (HLitU 97); HLitU 98]].
Definition slow := build nat unit (parse_in h_slow) plain_env 100 (tagged 2).
Definition slow_tok := match slow with BOk (t, _) => t | _ => mk_tok [] 0 [] [] end.
Lemma slow_built : slow = BOk (slow_tok, []).
Proof. vm_compute. reflexivity. Qed.
Lemma slow_wf : Forall wf_hir h_slow.
Proof.
  assert (HL : forall c, (c <=? max_char)%N = true -> wf_hir (HLitU c)) by (intros c Hc; apply N.leb_le; auto).
  repeat (apply Forall_cons || apply Forall_nil); [apply HL; reflexivity|]. split; [discriminate|]. split; [split; [exact I|apply HL; reflexivity]|]. split; [apply HL; reflexivity|exact I].
Qed.
Lemma slow_ok : tok_ok slow_tok.
Proof. apply (inv (parse_in h_slow) (parse_in_wf _ slow_wf) plain_env 100 (tagged 2) h_slow slow_tok []); [apply plain_ok|repeat constructor|exact slow_built]. Qed.
Lemma slow_run n : tok_run slow_tok (repeat 97%N n) = Some (match n with 0 => 0 | 1 => 2 | _ => 1 end).
Proof.
  induction n as [|n IH]; [reflexivity|]. replace (repeat 97%N (S n)) with (repeat 97%N n ++ [97%N]) by (rewrite <- repeat_cons; reflexivity).
  rewrite (tok_run_app _ _ _ _ IH). destruct n as [|[|n]]; vm_compute; reflexivity.
Qed.
Lemma slow_accepts n p : tok_accepts slow_tok (repeat 97%N n) p <-> n = 1 /\ p = 0.
Proof.
  unfold tok_accepts. rewrite slow_run. split.
  - intros (m & Hm & Ha). inversion Hm; subst m. destruct n as [|[|n]]; vm_compute in Ha; try discriminate. inversion Ha. auto.
  - intros [-> ->]. exists 2. split; reflexivity.
Qed.
Lemma slow_nil p : ~ tok_accepts slow_tok [] p.
Proof. intros H. apply (slow_accepts 0) in H as [H _]. discriminate. Qed.

Theorem C68_linear_refuted : exists (t : tokenizer (nat * list N * list (nat * N)) (nat * N)),
  build nat unit (parse_in h_slow) plain_env 100 (tagged 2) = BOk (t, []) /\ tok_ok t /\ (forall p, ~ tok_accepts t [] p) /\
  forall n, exists es calls, exhausts t snd (repeat (0, 97%N) n) es calls /\ length es = n /\ 2 * calls = n * (n + 1).
Proof.
  exists slow_tok. split; [exact slow_built|]. split; [exact slow_ok|]. split; [exact slow_nil|]. intros n0.
  set (x := (0, 97%N)).
  assert (Hall : forall l : list (nat * N), Forall (eq x) l -> map snd l = repeat 97%N (length l)) by (induction 1 as [|y l <- _ IH]; simpl; congruence).
  assert (G : forall n g, gleft g = n -> Forall (eq x) (gi_queue g) -> Forall (eq x) (gi_src g) -> n <= n0 ->
    exists es g', delivers (gnext pull_list (count_calls snd) slow_tok (S n0)) g es g' /\ length es = n /\ 2 * gi_map g' = 2 * gi_map g + n * (n + 1)).
  { induction n as [|n IH]; intros g Hn Hq Hs Hle.
    all: assert (R : exists r, gnext pull_list (count_calls snd) slow_tok (S n0) g = Ok r) by
      (apply (C58_returns _ _ _ _ pull_list (count_calls snd) slow_tok slow_ok) with (l := gi_src g) (src' := []);
       [intros [|? ?]; simpl; eauto|intros; unfold count_calls; eauto|exists []; split; [|reflexivity]; clear; induction (gi_src g); econstructor; simpl; eauto|unfold gleft in Hn; lia]).
    all: destruct R as ([o g'] & R); pose proof (gnext_ok pull_list (count_calls snd) slow_tok slow_ok (S n0) g) as H; rewrite R in H;
      destruct H as (q1 & q2 & u & cs & H1 & H2 & H3 & H4 & H5 & H6).
    all: assert (Hcs : cs = map snd (q1 ++ u)) by (clear - H3; induction H3 as [|m y c m1 l cs m2 Hc H IH]; simpl; [auto|inversion Hc; congruence]).
    all: assert (Hqu : Forall (eq x) (q1 ++ u)) by (apply Forall_app; split;
      [rewrite H1 in Hq; apply Forall_app in Hq; apply Hq|destruct H5 as [[_ H5]|(_ & _ & H5)]; [apply pulls_list in H5; rewrite H5 in Hs; apply Forall_app in Hs; apply Hs|apply delivers_list in H5 as [<- _]; auto]]).
    all: rewrite (Hall _ Hqu) in Hcs; destruct H5 as [[H5 _]|(_ & -> & H5)]; [rewrite Hcs, slow_run in H5; discriminate|]; apply delivers_list in H5 as [H5 H7]; subst u;
      rewrite app_nil_r in H1; subst q1; apply mapped_count in H3 as [H3 _]; unfold gleft in *; rewrite app_length in *; rewrite Hn in *; subst cs; rewrite repeat_length in *.
    - destruct o as [e|].
      + destruct H6 as (k & p & m & K1 & K2 & _). exfalso. apply (slow_nil p). replace k with 0 in K2 by lia. exact K2.
      + exists [], g'. split; [exists g; split; [constructor|auto]|]. simpl. lia.
    - assert (Hf : forall k, k <= S n -> firstn k (repeat 97%N (S n)) = repeat 97%N k).
      { intros k Hk. replace (S n) with (k + (S n - k)) by lia. rewrite repeat_app, firstn_app, repeat_length, Nat.sub_diag, firstn_all2 by (rewrite repeat_length; lia). cbn [firstn]. apply app_nil_r. }
      destruct o as [e|].
      + destruct H6 as (k & p & m & K1 & K2 & _ & _ & _ & K3). rewrite Hf in K2 by auto. apply slow_accepts in K2 as [-> ->]. rewrite app_nil_r in K3.
        assert (Hg : Forall (eq x) (gi_queue g')).
        { rewrite K3. clear - Hqu. destruct (gi_queue g ++ gi_src g); simpl; auto. inversion Hqu; auto. }
        destruct (IH g') as (es & g2 & (s1 & D1 & D2) & L1 & L2); auto; [rewrite K3, skipn_length, app_length, Hn, H7; simpl; lia|rewrite H7; constructor|lia|].
        exists (e :: es), g2. split; [exists s1; split; auto; econstructor; eauto|]. simpl. split; [lia|]. nia.
      + exfalso. destruct H6 as [H6 _]. apply (H6 1 0); [lia|]. rewrite Hf by lia. apply slow_accepts. auto. }
  destruct (G n0 (gtokenize (repeat x n0) 0)) as (es & g' & D & L1 & L2).
  - unfold gleft. simpl. apply repeat_length.
  - constructor.
  - simpl. clear. induction n0; simpl; constructor; auto.
  - auto.
  - exists es, (gi_map g'). split; [exists (S n0), g'; auto|]. simpl in L2. auto.
Qed.
Print Assumptions C68_linear_refuted.
