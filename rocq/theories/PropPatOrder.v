(** C66: the order in which patterns are registered shows only where patterns overlap, and the
    construction warnings tell whether it can. *)
From Verif Require Import Lib Hir NfaPath NfaSem NfaModel NfaProofs NfaExact TokNfa DfaModel DfaEdges DfaProofs DfaTop MinModel MinProofs MinTop TokModel TokSpec TokProofs TokTop TokMore MinSafe TokExamples PropTok PropBuild TokLive.

Section S.
  Context {E T P PErr : Type}.
  Variable parse : P -> hir + PErr.
  Hypothesis Hwf : parses_wf parse.
  Notation maker := (list N -> list T -> E).
  Notation build := (build P PErr parse).

  Lemma parsed_nth (ps : list (P * maker)) hs : parsed parse ps hs ->
    forall i x, nth_error ps i = Some x -> exists h, nth_error hs i = Some h /\ parse (fst x) = inl h.
  Proof. induction 1 as [|x h l hs Hx Hl IH]; intros [|i] y Hi; try discriminate; simpl in Hi; [inversion Hi; subst; exists h; auto|apply IH; auto]. Qed.
  Lemma parsed_nth' (ps : list (P * maker)) hs : parsed parse ps hs ->
    forall i h, nth_error hs i = Some h -> exists x, nth_error ps i = Some x /\ parse (fst x) = inl h.
  Proof. induction 1 as [|x h l hs Hx Hl IH]; intros [|i] y Hi; try discriminate; simpl in Hi; [inversion Hi; subst; exists x; auto|apply IH; auto]. Qed.
  Lemma parsed_perm (ps ps' : list (P * maker)) hs : parsed parse ps hs -> Permutation ps ps' -> exists hs', parsed parse ps' hs' /\ Permutation hs hs'.
  Proof.
    intros H Hp. revert hs H. induction Hp as [|x l l' Hp IH|x y l|l1 l2 l3 H1 IH1 H2 IH2]; intros hs H.
    - exists hs. split; auto.
    - inversion H; subst. destruct (IH _ H4) as (hs' & A & B). exists (y :: hs'). split; [constructor; auto|constructor; auto].
    - inversion H; subst. inversion H4; subst. eexists (_ :: _ :: _). split; [repeat constructor; eauto|apply perm_swap].
    - destruct (IH1 _ H) as (hs1 & A & B). destruct (IH2 _ A) as (hs2 & C & D). exists hs2. split; auto. eapply Permutation_trans; eauto.
  Qed.

  Definition disjoint (hs : list hir) : Prop := forall i j w, pat_lang hs i w -> pat_lang hs j w -> i = j.

  Lemma disjoint_perm (ps ps' : list (P * maker)) hs hs' : parsed parse ps hs -> parsed parse ps' hs' -> Permutation ps ps' -> disjoint hs -> disjoint hs'.
  Proof.
    intros H H' Hp Hd i j w (h & Hh & Hw) (h' & Hh' & Hw').
    destruct (proj1 (Permutation_nth_error ps ps') Hp) as (_ & f & Hf & Hn).
    destruct (parsed_nth' _ _ H' _ _ Hh) as (x & Hx & Ex), (parsed_nth' _ _ H' _ _ Hh') as (y & Hy & Ey).
    rewrite Hn in Hx, Hy. destruct (parsed_nth _ _ H _ _ Hx) as (g & Hg & Eg), (parsed_nth _ _ H _ _ Hy) as (g' & Hg' & Eg').
    apply Hf. apply (Hd _ _ w); [exists g; split; auto; congruence|exists g'; split; auto; congruence].
  Qed.

  Lemma no_warn_disjoint env fuel (ps : list (P * maker)) hs t : env_ok env -> parsed parse ps hs -> build env fuel ps = BOk (t, []) -> disjoint hs.
  Proof.
    intros He Hp Hb i j w Hi Hj. destruct (inv parse Hwf _ _ _ _ _ _ He Hp Hb) as (_ & _ & _ & Hw & _).
    assert (i < length hs) by (destruct Hi as (h & Hh & _); eapply nth_error_Some_lt; eauto).
    assert (j < length hs) by (destruct Hj as (h & Hh & _); eapply nth_error_Some_lt; eauto).
    destruct (Nat.lt_trichotomy i j) as [Hl|[->|Hl]]; auto; exfalso; [exact (no_warn _ _ _ Hw eq_refl j i w ltac:(auto) Hl Hj Hi)|exact (no_warn _ _ _ Hw eq_refl i j w ltac:(auto) Hl Hi Hj)].
  Qed.
  Lemma disjoint_no_warn env fuel (ps : list (P * maker)) hs t ws : env_ok env -> parsed parse ps hs -> build env fuel ps = BOk (t, ws) -> disjoint hs -> ws = [].
  Proof.
    intros He Hp Hb Hd. destruct (inv parse Hwf _ _ _ _ _ _ He Hp Hb) as (_ & _ & _ & Hw & _).
    destruct ws as [|[a b] ws]; auto. exfalso. destruct (proj1 (Hw a b)) as (_ & Hlt & w & H1 & H2 & _); [simpl; auto|].
    rewrite (Hd _ _ _ H1 H2) in Hlt. unfold Nat.lt in *. lia.
  Qed.

  Lemma renumbered env env' fuel fuel' (ps ps' : list (P * maker)) hs hs' t ws t' ws' :
    env_ok env -> env_honest env -> env_ok env' -> env_honest env' -> parsed parse ps hs -> parsed parse ps' hs' -> Permutation ps ps' -> disjoint hs' ->
    build env fuel ps = BOk (t, ws) -> build env' fuel' ps' = BOk (t', ws') -> same_makers t t'.
  Proof.
    intros He Hh He' Hh' Hp Hp' Hpm Hd Hb Hb' w i m Ha Hm.
    destruct (inv parse Hwf _ _ _ _ _ _ He Hp Hb) as (Hs & Hw & B & _ & Ht).
    destruct (inv parse Hwf _ _ _ _ _ _ He' Hp' Hb') as (Hs' & Hw' & B' & _ & Ht').
    apply (bt_accept _ _ _ _ B Hh) in Ha as (_ & (h & Hi & Hsem) & _).
    rewrite (bt_makers _ _ _ _ B), nth_error_map in Hm. destruct (nth_error ps i) as [[p m']|] eqn:Ei; simpl in Hm; inversion Hm; subst m'.
    assert (Hin : In (p, m) ps') by (eapply Permutation_in; [exact Hpm|eapply nth_error_In; eauto]).
    apply In_nth_error in Hin as (j & Hj). destruct (parsed_nth _ _ Hp _ _ Ei) as (h1 & Hh1 & E1), (parsed_nth _ _ Hp' _ _ Hj) as (h2 & Hh2 & E2).
    assert (h2 = h) as -> by congruence. assert (L : pat_lang hs' j w) by (exists h; auto).
    exists j. split; [|rewrite (bt_makers _ _ _ _ B'), nth_error_map, Hj; reflexivity].
    apply (bt_accept _ _ _ _ B' Hh'). split; [eapply nth_error_Some_lt; eauto|]. split; auto.
    intros j' Hj' L'. rewrite (Hd _ _ _ L' L) in Hj'. unfold Nat.lt in *. lia.
  Qed.

  Lemma run_perm env env' fuel fuel' (ps ps' : list (P * maker)) hs hs' t ws t' ws' :
    env_ok env -> env_honest env -> env_ok env' -> env_honest env' -> parsed parse ps hs -> parsed parse ps' hs' -> Permutation hs hs' ->
    build env fuel ps = BOk (t, ws) -> build env' fuel' ps' = BOk (t', ws') -> forall w, tok_run t w = None <-> tok_run t' w = None.
  Proof.
    intros He Hh He' Hh' Hp Hp' Hpm Hb Hb' w.
    pose proof (build_live P PErr parse Hwf ps hs env fuel t ws He Hh Hp Hb w) as H1.
    pose proof (build_live P PErr parse Hwf ps' hs' env' fuel' t' ws' He' Hh' Hp' Hb' w) as H2.
    assert (Hx : (exists h, In h hs /\ live h w) <-> exists h, In h hs' /\ live h w).
    { split; intros (h & A & B); exists h; (split; [eapply Permutation_in; [|exact A]; auto; apply Permutation_sym; auto|auto]). }
    rewrite Hx, <- H2 in H1. destruct (tok_run t w), (tok_run t' w); split; intros; try congruence; exfalso; [apply (proj1 H1)|apply (proj2 H1)]; congruence.
  Qed.
End S.

(** C66: patterns registered without a warning can be registered in any other order: the build
    succeeds again, again without warnings, and the two tokenizers answer every call alike *)
Theorem C66_pattern_order : forall E T P PErr (parse : P -> hir + PErr) env fuel (patterns patterns' : list (P * (list N -> list T -> E))) t,
  parses_wf parse -> env_ok env -> env_honest env -> Permutation patterns patterns' -> build P PErr parse env fuel patterns = BOk (t, []) ->
  exists F, forall env' fuel', env_ok env' -> env_honest env' -> F <= fuel' ->
  exists t', build P PErr parse env' fuel' patterns' = BOk (t', []) /\
    (forall f s, next t f s = next t' f s) /\
    (forall f s n, tok_collect n t f s = tok_collect n t' f s).
Proof.
  intros E T P PErr parse env fuel ps ps' t W He Hh Hpm Hb.
  destruct (build_inv P PErr parse _ _ _ _ _ W He Hb) as (hs & Hp & Hs & _).
  destruct (parsed_perm parse ps ps' hs Hp Hpm) as (hs' & Hp' & Hph).
  assert (Hd := no_warn_disjoint parse W env fuel ps hs t He Hp Hb).
  assert (Hd' := disjoint_perm parse ps ps' hs hs' Hp Hp' Hpm Hd).
  destruct (@build_ok E T P PErr parse W ps' hs' Hp') as [(F & HF)|(i & h & e & A1 & A2 & _)].
  2:{ exfalso. rewrite Forall_forall in Hs. eapply (Hs h); [eapply Permutation_in; [apply Permutation_sym; exact Hph|eapply nth_error_In; eauto]|exact A2]. }
  exists F. intros env' fuel' He' Hh' Hf. destruct (HF env' fuel' He' Hf) as (t' & ws' & Hb' & _).
  assert (ws' = []) as -> by (eapply (disjoint_no_warn parse W); eauto).
  assert (Hn : forall f s, next t f s = next t' f s).
  { intros f s. apply next_renumbered.
    - apply (inv parse W _ _ _ _ _ _ He Hp Hb).
    - apply (inv parse W _ _ _ _ _ _ He' Hp' Hb').
    - exact (renumbered parse W env env' fuel fuel' ps ps' hs hs' _ _ _ _ He Hh He' Hh' Hp Hp' Hpm Hd' Hb Hb').
    - exact (renumbered parse W env' env fuel' fuel ps' ps hs' hs _ _ _ _ He' Hh' He Hh Hp' Hp (Permutation_sym Hpm) Hd Hb' Hb).
    - exact (run_perm parse W env env' fuel fuel' ps ps' hs hs' _ _ _ _ He Hh He' Hh' Hp Hp' Hph Hb Hb'). }
  exists t'. split; auto. split; auto. intros f s n. apply collect_same. auto.
Qed.
Print Assumptions C66_pattern_order.

(** whatever the warnings, the order never changes how many items one call takes from the
    underlying iterator, nor where the tokens end *)
Definition same_cuts {E T} (t t' : tokenizer E T) : Prop :=
  forall f s r s1, next t f s = Ok (r, s1) -> exists r', next t' f s = Ok (r', s1) /\ (r = None <-> r' = None).
Theorem C66_same_cuts : forall E T P PErr (parse : P -> hir + PErr) env env' fuel fuel' (patterns patterns' : list (P * (list N -> list T -> E))) t ws t' ws',
  parses_wf parse -> env_ok env -> env_honest env -> env_ok env' -> env_honest env' -> Permutation patterns patterns' ->
  build P PErr parse env fuel patterns = BOk (t, ws) -> build P PErr parse env' fuel' patterns' = BOk (t', ws') -> same_cuts t t'.
Proof.
  intros E T P PErr parse env env' fuel fuel' ps ps' t ws t' ws' W He Hh He' Hh' Hpm Hb Hb' f s r s1 Hn.
  destruct (build_inv P PErr parse _ _ _ _ _ W He Hb) as (hs & Hp & _).
  destruct (parsed_perm parse ps ps' hs Hp Hpm) as (hs' & Hp' & Hph).
  destruct (inv parse W _ _ _ _ _ _ He Hp Hb) as (_ & _ & B & _ & Ht).
  destruct (inv parse W _ _ _ _ _ _ He' Hp' Hb') as (_ & _ & B' & _ & Ht').
  assert (Hd := run_perm parse W env env' fuel fuel' ps ps' hs hs' _ _ _ _ He Hh He' Hh' Hp Hp' Hph Hb Hb').
  assert (Ha : forall w i, tok_accepts t w i -> exists j, tok_accepts t' w j).
  { intros w i Hi. apply (bt_accept _ _ _ _ B Hh) in Hi as (_ & (h & Hi & Hsem) & _).
    assert (Hin : In h hs') by (eapply Permutation_in; [exact Hph|eapply nth_error_In; eauto]). apply In_nth_error in Hin as (j & Hj).
    apply (accept_any _ _ _ _ B' Hh' w j). exists h. auto. }
  assert (Ha' : forall w i, tok_accepts t' w i -> exists j, tok_accepts t w j).
  { intros w i Hi. apply (bt_accept _ _ _ _ B' Hh') in Hi as (_ & (h & Hi & Hsem) & _).
    assert (Hin : In h hs) by (eapply Permutation_in; [apply Permutation_sym; exact Hph|eapply nth_error_In; eauto]). apply In_nth_error in Hin as (j & Hj).
    apply (accept_any _ _ _ _ B Hh w j). exists h. auto. }
  exact (cuts_same t t' f Ht Ht' Ha Ha' Hd s r s1 Hn).
Qed.
Print Assumptions C66_same_cuts.

(** with a warning the order does show: for two patterns that overlap there is an input whose
    token is made by whichever of the two was registered first *)
Theorem C66_overlap_shows : forall E P PErr (parse : P -> hir + PErr) env env' fuel fuel' (x y : P * (list N -> list N -> E)) t ws t' ws',
  parses_wf parse -> env_ok env -> env_honest env -> env_ok env' -> env_honest env' ->
  build P PErr parse env fuel [x; y] = BOk (t, ws) -> build P PErr parse env' fuel' [y; x] = BOk (t', ws') ->
  ws <> [] ->
  exists w s1 s2, next t id (tokenize_with w) = Ok (Some (snd x w w), s1) /\ next t' id (tokenize_with w) = Ok (Some (snd y w w), s2).
Proof.
  intros E P PErr parse env env' fuel fuel' x y t ws t' ws' W He Hh He' Hh' Hb Hb' Hws.
  destruct (build_inv P PErr parse _ _ _ _ _ W He Hb) as (hs & Hp & _).
  destruct (parsed_perm parse [x; y] [y; x] hs Hp (perm_swap _ _ _)) as (hs' & Hp' & _).
  destruct (inv parse W _ _ _ _ _ _ He Hp Hb) as (_ & _ & B & Hw & Ht).
  destruct (inv parse W _ _ _ _ _ _ He' Hp' Hb') as (_ & _ & B' & _ & Ht').
  assert (Hl : exists h1 h2, hs = [h1; h2] /\ hs' = [h2; h1]).
  { unfold parsed in Hp, Hp'. inversion Hp as [|? h1 ? l1 A1 A2]; subst. inversion A2 as [|? h2 ? l2 A3 A4]; subst. inversion A4; subst.
    inversion Hp' as [|? g1 ? m1 C1 C2]; subst. inversion C2 as [|? g2 ? m2 C3 C4]; subst. inversion C4; subst. exists h1, h2. split; auto. f_equal; [congruence|f_equal; congruence]. }
  destruct Hl as (h1 & h2 & -> & ->). destruct ws as [|[a b] ws]; [congruence|].
  destruct (proj1 (Hw a b)) as (Ha & Hlt & w & L1 & L2 & _); [simpl; auto|]. cbn [length] in Ha.
  assert (a = 1 /\ b = 0) as [-> ->] by (unfold Nat.lt in *; lia).
  destruct L1 as (g1 & G1 & S1), L2 as (g2 & G2 & S2). simpl in G1, G2. inversion G1; inversion G2; subst g1 g2.
  assert (A0 : tok_accepts t w 0).
  { apply (bt_accept _ _ _ _ B Hh). split; [simpl; unfold Nat.lt; lia|]. split; [exists h1; auto|]. intros p Hp0. inversion Hp0. }
  assert (A0' : tok_accepts t' w 0).
  { apply (bt_accept _ _ _ _ B' Hh'). split; [simpl; unfold Nat.lt; lia|]. split; [exists h2; auto|]. intros p Hp0. inversion Hp0. }
  destruct (whole_match t id Ht w 0 (snd x) ltac:(rewrite map_id; exact A0)) as (s1 & E1); [rewrite (bt_makers _ _ _ _ B); reflexivity|].
  destruct (whole_match t' id Ht' w 0 (snd y) ltac:(rewrite map_id; exact A0')) as (s2 & E2); [rewrite (bt_makers _ _ _ _ B'); reflexivity|].
  exists w, s1, s2. rewrite map_id in E1, E2. auto.
Qed.
Print Assumptions C66_overlap_shows.

(** numbers and blanks do not overlap; "if" and identifiers do *)
Definition apart : list hir := [h_num; h_sp; h_id].
Lemma apart_wf : Forall wf_hir apart.
Proof. assert (H := demo_wf). unfold demo_hirs in H. inversion H; subst. inversion H3; subst. inversion H5; subst. inversion H7; subst. repeat constructor; auto. Qed.
Definition three := [(0, tag 0); (1, tag 1); (2, tag 2)].
Definition three' := [(2, tag 2); (0, tag 0); (1, tag 1)].
Example C66_example :
  (exists t, build nat unit (parse_in apart) plain_env 100 three = BOk (t, [])) /\ Permutation three three' /\ parses_wf (parse_in apart) /\
  (exists t', build nat unit (parse_in apart) rev_env 100 three' = BOk (t', [])).
Proof.
  split; [eexists; vm_compute; reflexivity|]. split; [|split].
  - apply Permutation_sym. unfold three, three'. apply (Permutation_cons_append [(0, tag 0); (1, tag 1)] (2, tag 2)).
  - exact (parse_in_wf _ apart_wf).
  - eexists. vm_compute. reflexivity.
Qed.
Definition clash (i : nat) : nat * (list N -> list N -> nat) := (i, fun _ _ => i).
Example C66_example_overlap : exists t t' ws ws',
  build nat unit (parse_in [h_if; h_id]) plain_env 100 [clash 0; clash 1] = BOk (t, ws) /\
  build nat unit (parse_in [h_if; h_id]) plain_env 100 [clash 1; clash 0] = BOk (t', ws') /\ ws <> [] /\
  (exists s1 s2, next t id (tokenize_with [105; 102]%N) = Ok (Some 0, s1) /\ next t' id (tokenize_with [105; 102]%N) = Ok (Some 1, s2)).
Proof. eexists _, _, _, _. split; [vm_compute; reflexivity|]. split; [vm_compute; reflexivity|]. split; [discriminate|]. eexists _, _. split; vm_compute; reflexivity. Qed.
