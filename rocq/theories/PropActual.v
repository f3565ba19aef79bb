(** * Property C56: what patterns really accept, for all patterns *)
From Verif Require Import Lib Hir NfaPath NfaSem NfaModel NfaProofs NfaExact TokNfa DfaModel DfaEdges DfaProofs DfaTop MinModel MinProofs MinTop TokModel TokSpec TokProofs TokTop TokMore MinSafe TokExamples PropTok PropBuild ActualSpec.

Definition denotes (Q : quad) (M : mat) : Prop := forall x y w, matches (Q x y) w <-> M x y w.

Lemma cat_m a b w : matches (h_cat a b) w <-> l_cat (matches a) (matches b) w.
Proof. change (matches (h_cat a b) w) with (l_cat (matches a) (l_cat (matches b) l_eps) w). apply l_cat_ext; [tauto|]. intros w'. apply l_cat_eps_r. Qed.
Lemma or_m a b w : matches (h_or a b) w <-> matches a w \/ matches b w.
Proof. change (matches (h_or a b) w) with (matches a w \/ matches b w \/ False). tauto. Qed.
Lemma none_m w : matches h_none w <-> False.
Proof. reflexivity. Qed.

Lemma m_add_iff (M : mat) u v x y w :
  m_add M u v x y w <-> M x y w \/ l_cat (M x u) (l_cat (l_star (M v u)) (M v y)) w.
Proof.
  split.
  - intros H. induction H as [w y H|w1 w2 y _ IH H]; [auto|]. right. destruct IH as [IH|(a & b & -> & H1 & c & d & -> & (n & H2) & H3)].
    + exists w1, w2. split; auto. split; auto. exists [], w2. split; auto. split; auto. exists 0. reflexivity.
    + exists a, ((c ++ d) ++ w2). split; [rewrite <- !app_assoc; reflexivity|]. split; auto.
      exists (c ++ d), w2. split; auto. split; auto. exists (S n). apply l_pow_S_r. exists c, d. auto.
  - intros [H|(a & b & -> & H1 & c & d & -> & (n & H2) & H3)]; [constructor; auto|].
    rewrite app_assoc. apply ma_step; auto. clear d H3. revert c H2. induction n as [|n IH]; intros c H2.
    + cbn in H2. unfold l_eps in H2. subst c. rewrite app_nil_r. constructor. auto.
    + apply l_pow_S_r in H2 as (c1 & c2 & -> & H2 & H3). rewrite app_assoc. apply ma_step; auto.
Qed.
Lemma d_add Q M u v : denotes Q M -> denotes (q_add Q u v) (m_add M u v).
Proof.
  intros H x y w. unfold q_add. rewrite or_m, m_add_iff, cat_m, (H x y w).
  assert (G : forall w, l_cat (matches (Q x u)) (matches (h_cat (h_star (Q v u)) (Q v y))) w <-> l_cat (M x u) (l_cat (l_star (M v u)) (M v y)) w); [|rewrite G; tauto].
  apply l_cat_ext; [apply H|]. intros w'. rewrite cat_m. apply l_cat_ext; [|apply H]. intros w2. change (matches (h_star (Q v u)) w2) with (l_star (matches (Q v u)) w2).
  split; intros [n Hn]; exists n; (eapply l_pow_ext; [|exact Hn]); intros w3; [symmetry|]; apply H.
Qed.
Lemma d_atom a L : (forall w, matches a w <-> L w) -> denotes (q_atom a) (m_atom L).
Proof. intros H [] [] w; simpl; try tauto. apply H. Qed.
Lemma d_cat P Q M1 M2 : denotes P M1 -> denotes Q M2 -> denotes (q_cat P Q) (m_cat M1 M2).
Proof. intros H1 H2 [] [] w; unfold q_cat, m_cat; [apply H1| |reflexivity|apply H2]. rewrite cat_m. apply l_cat_ext; auto. Qed.
Lemma d_star Q M : denotes Q M -> denotes (q_star Q) (m_star M).
Proof. intros H x y w. unfold q_star, m_star. apply d_add. auto. Qed.
Lemma d_pow Q M n : denotes Q M -> forall w, matches (h_pow n (Q B E)) w <-> l_pow (M B E) n w.
Proof. intros H w. change (matches (h_pow n (Q B E)) w) with (l_pow (matches (Q B E)) n w). apply l_pow_ext. apply H. Qed.
Lemma d_exactly n Q M : denotes Q M -> denotes (q_exactly n Q) (m_exactly n M).
Proof. intros H [] [] w; unfold q_exactly, m_exactly; [apply H| |reflexivity|apply H]. apply d_pow. auto. Qed.
Lemma d_at_least n Q M : denotes Q M -> denotes (q_at_least n Q) (m_at_least n M).
Proof. intros H [] [] w; unfold q_at_least, m_at_least; [apply H| |reflexivity|apply d_add; auto]. rewrite cat_m. apply l_cat_ext; [apply d_pow; auto|apply d_add; auto]. Qed.
Lemma d_bounded n m Q M : 1 <= m -> denotes Q M -> denotes (q_bounded n m Q) (m_bounded n m M).
Proof.
  intros Hm H [] [] w; unfold q_bounded, m_bounded; [apply H| |reflexivity|apply H]. rewrite or_m. unfold l_or. rewrite d_pow by exact H. rewrite cat_m.
  assert (G : forall w, l_cat (matches (HRep (RBounded n (m - 1)) true (Q B E))) (matches (Q E E)) w <-> l_cat (l_between (M B E) n m) (M E E) w); [|rewrite G; tauto].
  apply l_cat_ext; [|apply H]. intros w'. cbn [matches rep_lang]. unfold l_between.
  split; intros (i & H1 & H2 & H3); exists i; (split; [lia|split; [lia|]]); (eapply l_pow_ext; [|exact H3]); intros w3; [symmetry|]; apply H.
Qed.
Lemma d_rep k Q M : wf_rep k -> denotes Q M -> denotes (q_rep k Q) (rep_mat k M).
Proof.
  intros Hk H. destruct k as [| | |n|n|n m]; unfold q_rep, rep_mat.
  - apply d_add; auto.
  - apply d_star; auto.
  - apply d_add; auto.
  - destruct n as [|[|n]]; [intros x y w; reflexivity|auto|apply d_exactly; auto].
  - destruct n as [|n]; [apply d_star; auto|apply d_at_least; auto].
  - simpl in Hk. destruct n as [|n].
    + destruct m as [|[|m]]; [intros x y w; reflexivity|apply d_add; auto|]. apply d_add. apply d_bounded; auto. lia.
    + destruct m as [|m]; [lia|]. destruct n as [|n].
      * destruct m as [|m]; [exact H|]. apply (d_bounded 1 (S (S m))); [lia|exact H].
      * destruct (Nat.eqb (S (S n)) (S m)); [apply d_exactly; auto|apply d_bounded; auto; lia].
Qed.
Lemma any_m w : matches h_any w <-> Forall (fun c => (c <= max_char)%N) w.
Proof.
  change (matches h_any w) with (l_star (matches (HClassU [(0%N, max_char)])) w). split.
  - intros [n H]. revert w H. induction n as [|n IH]; intros w H; [cbn in H; unfold l_eps in H; subst; constructor|].
    destruct H as (a & b & -> & (c & -> & lo & hi & [E0|[]] & _ & H2) & H3). inversion E0; subst. constructor; auto.
  - intros H. exists (length w). induction H as [|c w H _ IH]; [reflexivity|]. exists [c], w. split; auto. split; auto. exists c. split; auto. exists 0%N, max_char. split; [left; auto|]. split; [lia|auto].
Qed.
Lemma quad_sem h : wf_hir h -> denotes (quad_of h) (sem h).
Proof.
  induction h as [|c|b|rs|rs| | |k g h IH|h IH|hs IH|hs IH] using hir_ind'; intros Hw.
  - intros x y w. apply any_m.
  - apply d_atom. intros w. reflexivity.
  - intros x y w. reflexivity.
  - apply d_atom. intros w. reflexivity.
  - intros x y w. reflexivity.
  - intros x y w. reflexivity.
  - intros x y w. reflexivity.
  - destruct Hw as [H1 H2]. apply d_rep; auto.
  - apply IH. exact Hw.
  - destruct Hw as [_ Hw]. revert Hw. induction IH as [|x l Hx Hl IHl]; intros Hw; [intros x y w; reflexivity|].
    destruct Hw as [H1 H2]. destruct l as [|y l]; [apply Hx; auto|]. apply (d_cat (quad_of x) _ (sem x)); [auto|]. apply IHl. exact H2.
  - apply d_atom. intros w. simpl in Hw. induction IH as [|x l Hx Hl IHl]; [reflexivity|]. destruct Hw as [H1 H2].
    specialize (IHl H2). cbn in IHl |- *. unfold l_or. rewrite IHl. rewrite (Hx H1 B E w). reflexivity.
Qed.
Definition actual_lang (hirs : list hir) (i : nat) : lang := fun w => exists h, nth_error hirs i = Some h /\ matches (actual h) w.
Lemma actual_pat hirs : Forall wf_hir hirs -> forall i w, pat_lang hirs i w <-> actual_lang hirs i w.
Proof.
  intros H i w. unfold pat_lang, actual_lang. rewrite Forall_forall in H.
  split; intros (h & Hh & Hm); exists h; (split; [auto|]); apply (quad_sem h); auto; apply H; eapply nth_error_In; eauto.
Qed.

(** a string is accepted for pattern [i] iff it matches the actual expression of that pattern and of no earlier one *)
Theorem C56_accepts : forall E T P PErr (parse : P -> hir + PErr) env fuel (patterns : list (P * (list N -> list T -> E))) hirs t ws,
  parses_wf parse -> env_ok env -> env_honest env -> parsed parse patterns hirs -> build P PErr parse env fuel patterns = BOk (t, ws) ->
  forall w i, tok_accepts t w i <->
    (exists h, nth_error hirs i = Some h /\ matches (actual h) w) /\ forall j h, j < i -> nth_error hirs j = Some h -> ~ matches (actual h) w.
Proof.
  intros E T P PErr parse env fuel ps hirs t ws W O H Hp Hb w i. destruct (inv parse W env fuel _ _ t ws O Hp Hb) as (_ & Hw & B & _).
  rewrite (bt_accept _ _ _ _ B H w i). pose proof (actual_pat hirs Hw) as G. split.
  - intros (H1 & H2 & H3). split; [apply G; auto|]. intros j h Hj Hh Hm. apply (H3 j Hj). apply G. exists h. auto.
  - intros (H1 & H2). assert (i < length hirs) by (destruct H1 as (h & Hh & _); apply nth_error_Some; congruence). split; auto. split; [apply G; auto|].
    intros j Hj Hl. apply G in Hl as (h & Hh & Hm). eapply H2; eauto.
Qed.
Print Assumptions C56_accepts.

(** the warnings are the overlaps of the actual expressions *)
Theorem C56_warnings : forall E T P PErr (parse : P -> hir + PErr) env fuel (patterns : list (P * (list N -> list T -> E))) hirs t ws,
  parses_wf parse -> env_ok env -> parsed parse patterns hirs -> build P PErr parse env fuel patterns = BOk (t, ws) ->
  forall j i, In (j, i) ws <-> j < length hirs /\ i < j /\
    exists w, actual_lang hirs j w /\ actual_lang hirs i w /\ forall p, i < p < j -> ~ actual_lang hirs p w.
Proof.
  intros E T P PErr parse env fuel ps hirs t ws W O Hp Hb j i. destruct (inv parse W env fuel _ _ t ws O Hp Hb) as (_ & Hw & _ & Hg & _).
  rewrite (Hg j i). pose proof (actual_pat hirs Hw) as G.
  split; intros (A & B & w & C & D & F); (split; [auto|split; [auto|]]); exists w; (split; [apply G; auto|split; [apply G; auto|]]); intros p Hpp Hq; apply (F p Hpp); apply G; auto.
Qed.
Print Assumptions C56_warnings.

(** the tokens are those of maximal munch over the actual expressions *)
Theorem C56_tokens : forall E T P PErr (parse : P -> hir + PErr) env fuel (patterns : list (P * (list N -> list T -> E))) hirs t ws,
  parses_wf parse -> env_ok env -> env_honest env -> parsed parse patterns hirs -> build P PErr parse env fuel patterns = BOk (t, ws) ->
  (forall h, In h hirs -> ~ matches (actual h) []) ->
  forall f input fuel', length input < fuel' ->
  exists toks es, munch (first_of (length hirs) (actual_lang hirs)) f input toks /\ tok_collect fuel' t f (tokenize_with input) = Ok es /\
    Forall2 (fun e x => exists p m, nth_error patterns (fst x) = Some (p, m) /\ e = m (map f (snd x)) (snd x)) es toks.
Proof.
  intros E T P PErr parse env fuel ps hirs t ws W O H Hp Hb Hnn f input fuel' Hf.
  destruct (inv parse W env fuel _ _ t ws O Hp Hb) as (_ & Hw & B & _ & Ht).
  assert (Hacc : forall w p, tok_accepts t w p <-> first_of (length hirs) (actual_lang hirs) w p).
  { intros w p. rewrite (bt_accept _ _ _ _ B H). apply first_of_ext. intros. apply actual_pat. auto. }
  destruct (tok_collect_terminates t f Ht (tokenize_with input) fuel') as (es & toks & A1 & A2 & A3 & _); auto.
  { intros p Hq. apply Hacc in Hq as (_ & (h & Hh & Hm) & _). eapply Hnn; [eapply nth_error_In; eauto|auto]. }
  exists toks, es. split; [eapply munch_ext; eauto|]. split; auto.
  clear -A3 B. induction A3 as [|e x l l' (m & Hm & Hx) Hl IH]; constructor; auto.
  rewrite (bt_makers _ _ _ _ B), nth_error_map in Hm. destruct (nth_error ps (fst x)) as [[p m']|] eqn:Ei; simpl in Hm; inversion Hm; subst m'. eauto.
Qed.
Print Assumptions C56_tokens.

(** nothing is lost, and nothing is added to the expressions of the class of C06 *)
Theorem C56_compared : forall h, wf_hir h -> supported h ->
  (forall w, matches h w -> matches (actual h) w) /\ (exact_hir h = true -> forall w, matches (actual h) w -> matches h w).
Proof.
  intros h Hw Hs. split.
  - intros w H. apply (quad_sem h Hw). apply matches_sem; auto.
  - intros He w H. apply exact_sem; auto. apply (quad_sem h Hw). exact H.
Qed.
Print Assumptions C56_compared.

(** (ab* )? accepts b* | ab* *)
Example C56_example : forall w, matches (actual h_opt) w <-> exists n, w = repeat 98%N n \/ w = 97%N :: repeat 98%N n.
Proof.
  assert (S1 : forall w, matches (q_star (q_atom (HLitU 98)) E E) w <-> exists n, w = repeat 98%N n).
  { intros w. rewrite (d_star _ _ (d_atom (HLitU 98) (fun w => w = [98%N]) (fun w => iff_refl _)) E E w). unfold m_star. rewrite m_add_iff. split.
    - intros [H|(a & b & -> & H1 & c & d & -> & (n & H2) & H3)]; [exists 0; exact H|]. cbn in H1, H3. unfold l_eps in H3. subst a d. exists (S n). rewrite app_nil_r. cbn. f_equal.
      revert c H2. induction n as [|n IH]; intros c H2; [exact H2|]. destruct H2 as (a & b & -> & -> & H2). cbn. rewrite (IH b H2). reflexivity.
    - intros [[|n] ->]; [left; reflexivity|]. right. exists [98%N], (repeat 98%N n). split; auto. split; [reflexivity|]. exists (repeat 98%N n), []. split; [rewrite app_nil_r; auto|]. split; [|reflexivity].
      exists n. induction n as [|n IH]; [reflexivity|]. exists [98%N], (repeat 98%N n). split; [reflexivity|]. split; [reflexivity|exact IH]. }
  intros w. unfold actual, h_opt. change (quad_of (HRep RZeroOrOne true (HGroup (HConcat [HLitU 97; HRep RZeroOrMore true (HLitU 98)]))) B E)
    with (q_add (q_cat (q_atom (HLitU 97)) (q_star (q_atom (HLitU 98)))) B E B E). unfold q_add. rewrite or_m, cat_m. cbn [q_cat q_atom].
  assert (G : matches (h_cat (HLitU 97) (q_star (q_atom (HLitU 98)) B E)) w <-> exists n, w = 97%N :: repeat 98%N n).
  { rewrite cat_m. split.
    - intros (a & b & -> & H1 & H2). apply S1 in H2 as (n & ->). cbn in H1. subst a. exists n. reflexivity.
    - intros (n & ->). exists [97%N], (repeat 98%N n). split; auto. split; [reflexivity|]. apply S1. exists n. auto. }
  rewrite G. split.
  - intros [(n & ->)|(a & b & -> & H1 & H2)]; [exists n; auto|]. cbn in H1. unfold l_eps in H1. subst a. apply cat_m in H2 as (c & d & -> & H2 & H3).
    apply S1 in H3 as (n & ->). destruct H2 as ([|k] & H2); [cbn in H2; unfold l_eps in H2; subst c; exists n; auto|]. destruct H2 as (x & y & _ & [] & _).
  - intros (n & [->| ->]); [|left; exists n; auto]. right. exists [], (repeat 98%N n). split; auto. split; [reflexivity|]. apply cat_m. exists [], (repeat 98%N n). split; auto. split; [exists 0; reflexivity|]. apply S1. exists n. auto.
Qed.
Example C56_tokens_example : Forall wf_hir demo_hirs /\ forall h, In h demo_hirs -> ~ matches (actual h) [].
Proof.
  assert (W : Forall wf_hir demo_hirs). { repeat constructor; cbn; try discriminate; auto; lia. }
  split; auto. intros h Hh Hm. assert (Hs : supported h) by (pose proof (proj2 (sup_all demo_hirs) C14_example) as S0; rewrite Forall_forall in S0; auto).
  apply (C15_example h Hh). apply (C56_compared h); auto; [rewrite Forall_forall in W; auto|]. revert h Hh Hm Hs. vm_compute. intuition (subst; reflexivity).
Qed.
