(** * Property C80: tokens that are written out are read back *)
From Verif Require Import Lib Hir NfaPath NfaSem NfaModel NfaProofs NfaExact TokNfa DfaModel DfaProofs DfaTop MinModel MinProofs MinTop TokModel TokSpec TokProofs TokTop TokMore TokExamples PropTok PropBuild ActualSpec PropActual ReadSpec.

Section ReadFacts.
  Context {T : Type} (accepts : word -> nat -> Prop) (f : T -> N).
  Hypothesis Hne : forall p, ~ accepts [] p.
  Lemma first_app (u v : list T) : firstn (length u) (u ++ v) = u.
  Proof. rewrite firstn_app, Nat.sub_diag, firstn_all. simpl. apply app_nil_r. Qed.
  Lemma skip_app (u v : list T) : skipn (length u) (u ++ v) = v.
  Proof. rewrite skipn_app, Nat.sub_diag, skipn_all. reflexivity. Qed.
  Lemma readable_munch toks : readable accepts f toks <-> munch accepts f (written toks) toks.
  Proof.
    split.
    - induction 1 as [|p u rest Ha Hn Hr IH].
      + constructor. intros k p Hk. rewrite firstn_nil. apply Hne.
      + change (written ((p, u) :: rest)) with (u ++ written rest). replace ((p, u) :: rest) with ((p, firstn (length u) (u ++ written rest)) :: rest) by (rewrite first_app; auto). constructor.
        * split; [rewrite app_length; lia|]. split; [rewrite first_app; auto|]. intros k' p' [H1 H2]. rewrite firstn_app, (firstn_all2 u) by lia.
          apply (Hn _ (skipn (k' - length u) (written rest))).
          -- intros E0. apply (f_equal (@length _)) in E0. rewrite firstn_length in E0. rewrite app_length in H2. simpl in E0. lia.
          -- symmetry. apply firstn_skipn.
        * rewrite skip_app. exact IH.
    - induction toks as [|[p u] rest IH]; intros H; [constructor|]. change (written ((p, u) :: rest)) with (u ++ written rest) in H. inversion H as [|? k p' rest' (L1 & L2 & L3) Hm E1 [Ep E2 Er]]. subst p' rest'.
      rewrite E2 in L1, L2, L3, Hm |- *. assert (Hk : length u = k). { apply (f_equal (@length _)) in E2. rewrite firstn_length in E2. lia. }
      subst k. rewrite skip_app in Hm. rewrite first_app in L2. constructor; auto. intros a b q Ha Hw Hq. apply (L3 (length u + length a) q).
      + rewrite Hw, !app_length. destruct a; [congruence|]. simpl. lia.
      + rewrite Hw, firstn_app, (firstn_all2 u) by lia. replace (length u + length a - length u) with (length a) by lia. rewrite first_app. auto.
  Qed.
End ReadFacts.

(** readable tokens are read back *)
Theorem C80_read_back : forall E T P PErr (parse : P -> hir + PErr) env fuel (patterns : list (P * (list N -> list T -> E))) hirs t ws,
  parses_wf parse -> env_ok env -> env_honest env -> parsed parse patterns hirs -> build P PErr parse env fuel patterns = BOk (t, ws) ->
  (forall h, In h hirs -> ~ matches (actual h) []) ->
  forall f toks fuel', readable (first_of (length hirs) (actual_lang hirs)) f toks -> length (written toks) < fuel' ->
  exists es, tok_collect fuel' t f (tokenize_with (written toks)) = Ok es /\
    Forall2 (fun e x => exists p m, nth_error patterns (fst x) = Some (p, m) /\ e = m (map f (snd x)) (snd x)) es toks.
Proof.
  intros E T P PErr parse env fuel ps hirs t ws W O H Hp Hb Hnn f toks fuel' Hr Hf.
  destruct (C56_tokens E T P PErr parse env fuel ps hirs t ws W O H Hp Hb Hnn f (written toks) fuel' Hf) as (toks' & es & A1 & A2 & A3).
  assert (Hne : forall p, ~ first_of (length hirs) (actual_lang hirs) [] p). { intros p (_ & (h & Hh & Hm) & _). eapply Hnn; [eapply nth_error_In; eauto|auto]. }
  apply (readable_munch _ f Hne) in Hr. rewrite (C15_munch_deterministic T _ _ f _ _ _ A1 Hr) in A3. eauto.
Qed.
Print Assumptions C80_read_back.

(** only readable tokens are: with makers that return the pattern and the items, the text gives back the tokens just if they are readable *)
Theorem C80_exactly : forall T P PErr (parse : P -> hir + PErr) env fuel (patterns : list (P * (list N -> list T -> nat * list T))) hirs t ws,
  parses_wf parse -> env_ok env -> env_honest env -> parsed parse patterns hirs -> build P PErr parse env fuel patterns = BOk (t, ws) ->
  (forall h, In h hirs -> ~ matches (actual h) []) ->
  (forall i p m, nth_error patterns i = Some (p, m) -> forall s u, m s u = (i, u)) ->
  forall f toks fuel', length (written toks) < fuel' ->
  (tok_collect fuel' t f (tokenize_with (written toks)) = Ok toks <-> readable (first_of (length hirs) (actual_lang hirs)) f toks).
Proof.
  intros T P PErr parse env fuel ps hirs t ws W O H Hp Hb Hnn Hm f toks fuel' Hf.
  destruct (C56_tokens _ T P PErr parse env fuel ps hirs t ws W O H Hp Hb Hnn f (written toks) fuel' Hf) as (toks' & es & A1 & A2 & A3).
  assert (Hne : forall p, ~ first_of (length hirs) (actual_lang hirs) [] p). { intros p (_ & (h & Hh & Hh') & _). eapply Hnn; [eapply nth_error_In; eauto|auto]. }
  assert (He : es = toks'). { clear A1 A2. induction A3 as [|e [i u] l l' (p & m & E1 & E2) _ IH]; [reflexivity|]. f_equal; auto. rewrite E2. simpl in *. eapply Hm; eauto. }
  subst es. rewrite A2, (readable_munch _ f Hne). split.
  - intros E0. injection E0 as ->. exact A1.
  - intros Hr. f_equal. exact (C15_munch_deterministic T _ _ f _ _ _ A1 Hr).
Qed.
Print Assumptions C80_exactly.

(** if no pattern matches a text with separators and other characters, tokens with separators between them are readable *)
Theorem C80_separators : forall T hirs (f : T -> N) (sep : N -> Prop) toks,
  (forall h, In h hirs -> ~ matches (actual h) []) ->
  (forall h w, In h hirs -> matches (actual h) w -> Forall sep w \/ Forall (fun c => ~ sep c) w) ->
  Forall (fun x => first_of (length hirs) (actual_lang hirs) (map f (snd x)) (fst x)) toks -> spaced f sep toks ->
  readable (first_of (length hirs) (actual_lang hirs)) f toks.
Proof.
  intros T hirs f sep toks Hnn Hc Ha Hs. induction Hs as [|[p u]|[p u] [p' u'] l Hxy Hs IH].
  - constructor.
  - inversion Ha; subst. constructor; auto; [|constructor]. intros a b q Hne E0. destruct a; [congruence|discriminate].
  - inversion Ha as [|? ? A1 A2]; subst. inversion A2 as [|? ? A3 _]; subst. specialize (IH A2). constructor; auto. intros a b q Hne E0 Hq.
    assert (Hu : u <> []). { intros ->. destruct A1 as (_ & (h & Hh & Hm) & _). eapply Hnn; [eapply nth_error_In; eauto|exact Hm]. }
    assert (Hu' : u' <> []). { intros ->. destruct A3 as (_ & (h & Hh & Hm) & _). eapply Hnn; [eapply nth_error_In; eauto|exact Hm]. }
    destruct Hq as (_ & (h & Hh & Hm) & _). apply nth_error_In in Hh. destruct u as [|c u]; [congruence|]. destruct u' as [|c' u']; [congruence|]. destruct a as [|c2 a]; [congruence|].
    cbn in E0. injection E0 as <- E0. simpl in Hxy. assert (Hcc : (sep (f c) /\ ~ sep (f c')) \/ (~ sep (f c) /\ sep (f c'))).
    { unfold spaces, solid in Hxy. destruct Hxy as [[X1 X2]|[X1 X2]]; inversion X1; inversion X2; subst; auto. }
    rewrite map_app in Hm. destruct (Hc h _ Hh Hm) as [F|F]; apply Forall_app in F as [F1 F2]; inversion F1; inversion F2; subst; tauto.
Qed.
Print Assumptions C80_separators.

(** ** Example: the words if, [a-z]+, [0-9]+ with the separator blank: if iffy 42; and without the blanks *)
Definition keep (i : nat) : list N -> list N -> nat * list N := fun _ u => (i, u).
Definition kept : list (nat * (list N -> list N -> nat * list N)) := map (fun i => (i, keep i)) (seq 0 4).
Definition kept_tok := match build nat unit (parse_in demo_hirs) plain_env 100 kept with BOk (t, _) => t | _ => mk_tok [] 0 [] [] end.
Definition toks_spaced : list (nat * list N) := [(0, [105; 102]%N); (3, [32]%N); (1, [105; 102; 102; 121]%N); (3, [32]%N); (2, [52]%N); (3, [32]%N); (2, [50]%N)].
Definition toks_glued : list (nat * list N) := [(2, [52]%N); (2, [50]%N)].
Definition blank (c : N) : Prop := c = 32%N.
Lemma demo_class h w : In h demo_hirs -> matches (actual h) w -> Forall blank w \/ Forall (fun c => ~ blank c) w.
Proof.
  intros Hh Hm. assert (Hx : matches h w).
  { assert (Hs : supported h) by (pose proof (proj2 (sup_all demo_hirs) C14_example) as S0; rewrite Forall_forall in S0; auto).
    apply (C56_compared h); auto; [pose proof demo_wf as W; rewrite Forall_forall in W; auto|]. clear - Hh. revert h Hh. vm_compute. intuition (subst; reflexivity). }
  clear Hm. assert (HR : forall a b n w, (32 < a)%N -> l_pow (fun w => exists c, w = [c] /\ in_class c [(a, b)]) n w -> Forall (fun c => ~ blank c) w).
  { intros a b n. induction n as [|n IH]; intros v Ha H; [unfold l_pow, l_eps in H; subst v; constructor|]. destruct H as (x & y & -> & (c & -> & (lo & hi & [Er|[]] & Hc)) & H). apply Forall_app. split; [|apply IH; auto]. constructor; [|constructor]. unfold blank. injection Er as <- <-. lia. }
  destruct Hh as [<-|[<-|[<-|[<-|[]]]]].
  - right. destruct Hx as (a & b & -> & H1 & c & d & -> & H2 & H3). cbn in H1, H2. unfold l_eps in H3. subst. repeat constructor; discriminate.
  - right. destruct Hx as (n & _ & H). eapply HR; [|exact H]. lia.
  - right. destruct Hx as (n & _ & H). eapply HR; [|exact H]. lia.
  - left. cbn in Hx. subst w. repeat constructor.
Qed.
Example C80_example : parses_wf (parse_in demo_hirs) /\ env_ok plain_env /\ env_honest plain_env /\ parsed (parse_in demo_hirs) kept demo_hirs /\
  (exists ws, build nat unit (parse_in demo_hirs) plain_env 100 kept = BOk (kept_tok, ws)) /\ (forall h, In h demo_hirs -> ~ matches (actual h) []) /\
  (forall i p m, nth_error kept i = Some (p, m) -> forall s u, m s u = (i, u)) /\
  (forall h w, In h demo_hirs -> matches (actual h) w -> Forall blank w \/ Forall (fun c => ~ blank c) w) /\ spaced (fun c => c) blank toks_spaced /\
  readable (first_of (length demo_hirs) (actual_lang demo_hirs)) (fun c => c) toks_spaced /\
  tok_collect 100 kept_tok (fun c => c) (tokenize_with (written toks_spaced)) = Ok toks_spaced /\
  ~ readable (first_of (length demo_hirs) (actual_lang demo_hirs)) (fun c => c) toks_glued /\
  tok_collect 100 kept_tok (fun c => c) (tokenize_with (written toks_glued)) = Ok [(2, [52; 50]%N)].
Proof.
  assert (H1 : parses_wf (parse_in demo_hirs)) by (intros p h; apply (parse_in_wf _ demo_wf)). assert (H3 : parsed (parse_in demo_hirs) kept demo_hirs) by (repeat constructor).
  assert (H4 : exists ws, build nat unit (parse_in demo_hirs) plain_env 100 kept = BOk (kept_tok, ws)) by (eexists; vm_compute; reflexivity).
  assert (H5 : forall h, In h demo_hirs -> ~ matches (actual h) []) by apply C56_tokens_example.
  assert (H6 : forall i p m, nth_error kept i = Some (p, m) -> forall s u, m s u = (i, u)).
  { intros i p m Hi s u. destruct i as [|[|[|[|i]]]]; cbn in Hi; try (injection Hi as <- <-; reflexivity). destruct i; discriminate. }
  destruct plain_ok as [O Hh]. destruct H4 as [ws H4].
  pose proof (C80_exactly N nat unit (parse_in demo_hirs) plain_env 100 kept demo_hirs kept_tok ws H1 O Hh H3 H4 H5 H6 (fun c => c)) as HX.
  split; [exact H1|]. split; [exact O|]. split; [exact Hh|]. split; [exact H3|]. split; [exists ws; exact H4|]. split; [exact H5|]. split; [exact H6|]. split; [exact demo_class|].
  split.
  { assert (D : forall c, (32 <? c)%N = true -> ~ blank c) by (intros c Hc E0; rewrite E0 in Hc; discriminate).
    unfold toks_spaced. do 6 (apply spaced_cons; [first [left; split; [apply Forall_cons; [reflexivity|apply Forall_nil]|] | right; split; [|apply Forall_cons; [reflexivity|apply Forall_nil]]]; repeat (apply Forall_cons; [apply D; reflexivity|]); apply Forall_nil|]). apply spaced_one. }
  split; [refine (proj1 (HX toks_spaced 100 _) _); [apply Nat.ltb_lt; reflexivity|vm_compute; reflexivity]|]. split; [vm_compute; reflexivity|]. split; [|vm_compute; reflexivity].
  intros Hr. pose proof (proj2 (HX toks_glued 100 ltac:(apply Nat.ltb_lt; reflexivity)) Hr) as Hg. clear Hr. rename Hg into Hr. vm_compute in Hr. discriminate.
Qed.
