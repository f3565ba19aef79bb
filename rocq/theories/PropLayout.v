(** * Property C82: which white space there is does not matter *)
From Verif Require Import Lib Hir NfaPath NfaSem NfaModel NfaProofs NfaExact TokNfa DfaModel DfaProofs DfaTop MinModel MinProofs MinTop TokModel TokSpec TokProofs TokTop TokMore TokExamples PropTok PropBuild ActualSpec PropActual ReadSpec PropRead LayoutSpec.

Section Layout.
  Context {T : Type} (accepts : word -> nat -> Prop) (f : T -> N) (sep : N -> Prop).
  Hypothesis Hne : forall p, ~ accepts [] p.
  Hypothesis Hdet : forall w p q, accepts w p -> accepts w q -> p = q.
  Hypothesis Hpure : forall w p, accepts w p -> Forall sep w \/ Forall (fun c => ~ sep c) w.
  Hypothesis Hwhite : forall c, sep c -> ~ forall p, ~ accepts [c] p.
  Notation in_words := (in_words f sep).
  Notation munch := (munch accepts f).

  Lemma in_words_skip u : forall l ws, Forall (fun x => sep (f x)) u -> in_words (u ++ l) ws -> in_words l ws.
  Proof.
    induction u as [|x u IH]; simpl; intros l ws Hu H; auto. inversion Hu as [|? ? Hx Hu']; subst. inversion H as [|? ? ? ? H1|w l' ws' Hw Hn _ _ E0]; subst; auto.
    destruct w as [|y w]; [congruence|]. simpl in E0. injection E0 as -> E0. inversion Hn. contradiction.
  Qed.
  Lemma map_Forall (Q : N -> Prop) (u : list T) : Forall Q (map f u) <-> Forall (fun x => Q (f x)) u.
  Proof. rewrite !Forall_forall. split; intros H x Hx; [apply H, in_map; auto|]. apply in_map_iff in Hx as (y & <- & Hy). auto. Qed.

  (** the first token of a text that begins with a separator is a separator *)
  Lemma munch_sep x l toks ws : sep (f x) -> in_words (x :: l) ws -> munch (x :: l) toks ->
    exists p u l' rest, toks = (p, u) :: rest /\ x :: l = u ++ l' /\ length l' < length (x :: l) /\ Forall (fun y => sep (f y)) u /\ u <> [] /\ in_words l' ws /\ munch l' rest /\ accepts (map f u) p.
  Proof.
    intros Hx Hw Hm. inversion Hm as [? Hno E0|? k p rest (H1 & H2 & H3) Hr E0]; subst.
    - exfalso. apply (Hwhite (f x) Hx). intros p Hp. apply (Hno 1 p); simpl; auto. lia.
    - assert (Hk : k <> 0) by (intros ->; eapply Hne; exact H2). set (u := firstn k (x :: l)) in *. set (l' := skipn k (x :: l)) in *.
      assert (E0 : x :: l = u ++ l') by (symmetry; apply firstn_skipn).
      assert (Hu : Forall (fun y => sep (f y)) u). { destruct (Hpure _ _ H2) as [A|A]; apply map_Forall in A; auto. exfalso. unfold u in A. destruct k; [congruence|]. inversion A. contradiction. }
      exists p, u, l', rest. assert (Hlen : length u = k) by (apply firstn_length_le; auto). split; auto. split; auto. split; [rewrite E0, app_length; lia|]. split; auto.
      split; [destruct u; simpl in *; [lia|discriminate]|]. split; auto. apply (in_words_skip u); auto. rewrite <- E0. auto.
  Qed.

  (** what is accepted at the beginning of a word does not go beyond it *)
  Lemma accepts_word w l k p : w <> [] -> Forall (fun x => ~ sep (f x)) w -> (forall x l', l = x :: l' -> sep (f x)) -> k <= length (w ++ l) ->
    accepts (map f (firstn k (w ++ l))) p -> k <= length w.
  Proof.
    intros Hw Hn Hl Hk Ha. destruct (le_lt_dec k (length w)) as [|Hlt]; auto. exfalso. rewrite app_length in Hk. rewrite firstn_app, firstn_all2 in Ha by lia.
    destruct l as [|y l]; [simpl in Hk; lia|]. destruct (k - length w) as [|j] eqn:Ej; [lia|]. simpl in Ha. rewrite map_app in Ha. simpl in Ha.
    destruct w as [|x w]; [congruence|]. inversion Hn. specialize (Hl y l eq_refl).
    destruct (Hpure _ _ Ha) as [A|A]; apply Forall_app in A as [A1 A2]; inversion A1; inversion A2; subst; tauto.
  Qed.
  Lemma longest_word w l1 l2 k p : w <> [] -> Forall (fun x => ~ sep (f x)) w -> (forall x l', l1 = x :: l' -> sep (f x)) -> (forall x l', l2 = x :: l' -> sep (f x)) ->
    longest accepts f (w ++ l1) k p -> k <= length w /\ longest accepts f (w ++ l2) k p.
  Proof.
    intros Hw Hn Hl1 Hl2 (H1 & H2 & H3). assert (Hk : k <= length w) by (exact (accepts_word w l1 k p Hw Hn Hl1 H1 H2)). split; auto. split; [rewrite app_length; lia|].
    assert (Ef : forall j (l : list T), j <= length w -> firstn j (w ++ l) = firstn j w). { intros j l Hj. rewrite firstn_app. replace (j - length w) with 0 by lia. simpl. apply app_nil_r. }
    split; [rewrite Ef by auto; rewrite Ef in H2 by auto; exact H2|]. intros k' p' [A1 A2] A3. assert (Hk' : k' <= length w) by (exact (accepts_word w l2 k' p' Hw Hn Hl2 A2 A3)).
    apply (H3 k' p'); [rewrite app_length; lia|]. rewrite Ef by auto. rewrite Ef in A3 by auto. exact A3.
  Qed.
  Lemma nothing_word w l1 l2 : w <> [] -> Forall (fun x => ~ sep (f x)) w -> (forall x l', l1 = x :: l' -> sep (f x)) -> (forall x l', l2 = x :: l' -> sep (f x)) ->
    nothing accepts f (w ++ l1) -> nothing accepts f (w ++ l2).
  Proof.
    intros Hw Hn Hl1 Hl2 H k p Hk Ha. assert (Hk' : k <= length w) by (exact (accepts_word w l2 k p Hw Hn Hl2 Hk Ha)). apply (H k p); [rewrite app_length; lia|].
    rewrite firstn_app in *. replace (k - length w) with 0 in * by lia. simpl in *. auto.
  Qed.
  Lemma in_words_rest w l ws k : w <> [] -> Forall (fun x => ~ sep (f x)) w -> (forall x l', l = x :: l' -> sep (f x)) -> in_words l ws -> k <= length w ->
    in_words (skipn k (w ++ l)) (match skipn k w with [] => ws | w' => w' :: ws end).
  Proof.
    intros Hw Hn Hl H Hk. rewrite skipn_app. replace (k - length w) with 0 by lia. simpl. destruct (skipn k w) as [|x w'] eqn:E0; simpl; auto.
    change (x :: w' ++ l) with ((x :: w') ++ l). apply iw_word; auto; [discriminate|]. rewrite <- E0. rewrite <- (firstn_skipn k w) in Hn. apply Forall_app in Hn. tauto.
  Qed.

  (** the tokens of two texts with the same words differ only in separators *)
  Lemma munch_layout {K} (g : nat * list T -> list K) : (forall p u, accepts (map f u) p -> Forall (fun x => sep (f x)) u -> g (p, u) = []) ->
    forall x y ws tx ty, in_words x ws -> in_words y ws -> munch x tx -> munch y ty -> flat_map g tx = flat_map g ty.
  Proof.
    intros Hg. assert (G : forall n x y ws tx ty, length x + length y < n -> in_words x ws -> in_words y ws -> munch x tx -> munch y ty -> flat_map g tx = flat_map g ty); [|intros x y ws tx ty Hx Hy Mx My; exact (G (S (length x + length y)) x y ws tx ty (Nat.lt_succ_diag_r _) Hx Hy Mx My)].
    assert (Hend : forall toks, munch [] toks -> toks = []). { intros toks H. inversion H as [|? k p rest (H1 & H2 & _)]; subst; auto. exfalso. simpl in H1. assert (k = 0) by lia. subst. eapply Hne; exact H2. }
    assert (S1 : forall n, (forall x y ws tx ty, length x + length y < n -> in_words x ws -> in_words y ws -> munch x tx -> munch y ty -> flat_map g tx = flat_map g ty) ->
      forall a x y ws tx ty, length (a :: x) + length y < S n -> sep (f a) -> in_words (a :: x) ws -> in_words y ws -> munch (a :: x) tx -> munch y ty -> flat_map g tx = flat_map g ty).
    { intros n IH a x y ws tx ty Hn Ha Hx Hy Mx My. destruct (munch_sep a x tx ws Ha Hx Mx) as (p & u & l' & rest & -> & _ & Hlen & Hu & _ & Hw & Hm & Hac). simpl. rewrite (Hg p u Hac Hu). simpl. eapply (IH l' y); eauto. lia. }
    induction n as [|n IH]; [lia|]. intros x y ws tx ty Hn Hx Hy Mx My.
    inversion Hx as [|a x' ws' Ha Hx' E1 E2|w l1 ws1 Hw Hns Hl1 Hx' E1 E2].
    - subst. inversion Hy as [|a y' ws' Ha Hy' E1 E2|]; subst.
      + rewrite (Hend _ Mx), (Hend _ My). auto.
      + symmetry. eapply (S1 n IH a y' []); eauto. simpl in *. lia.
    - subst x ws'. eapply (S1 n IH a x' y); eauto.
    - subst x. inversion Hy as [E3 E4|a y' ws' Ha Hy' E3 E4|w2 l2 ws2 Hw2 Hns2 Hl2 Hy' E3 E4].
      + congruence.
      + subst y ws'. symmetry. eapply (S1 n IH a y' (w ++ l1)); eauto. simpl in *. lia.
      + subst y ws. injection E4 as -> ->. clear Hw2 Hns2.
        inversion Mx as [? Hno E5|? k p rest Hlo Hr E5]; subst.
        * inversion My as [? Hno' E5|? k p rest Hlo Hr E5]; subst; auto. exfalso. destruct Hlo as (A1 & A2 & _). apply (nothing_word w l1 l2 Hw Hns Hl1 Hl2 Hno k p A1 A2).
        * destruct (longest_word w l1 l2 k p Hw Hns Hl1 Hl2 Hlo) as [Hk Hlo2]. inversion My as [? Hno' E5|? k2 p2 rest2 Hlo2' Hr2 E5]; subst.
          -- exfalso. destruct Hlo2 as (A1 & A2 & _). apply (Hno' k p A1 A2).
          -- assert (k2 = k). { destruct Hlo2 as (A1 & A2 & A3), Hlo2' as (B1 & B2 & B3). destruct (Nat.lt_trichotomy k k2) as [C|[C|C]]; auto; exfalso; [eapply A3|eapply B3]; eauto. }
             subst k2. assert (p2 = p) by (eapply Hdet; [apply Hlo2'|apply Hlo2]). subst p2.
             assert (Hk0 : k <> 0). { intros ->. destruct Hlo as (_ & A2 & _). eapply Hne. exact A2. }
             assert (Ef : firstn k (w ++ l1) = firstn k (w ++ l2)). { rewrite !firstn_app. replace (k - length w) with 0 by lia. auto. }
             cbn [flat_map]. rewrite Ef. f_equal. match goal with H1 : in_words l1 ?v |- _ => apply (IH (skipn k (w ++ l1)) (skipn k (w ++ l2)) (match skipn k w with [] => v | w' => w' :: v end)) end;
               auto; [|apply in_words_rest; auto|apply in_words_rest; auto].
             rewrite !skipn_length. assert (0 < length (w ++ l1)) by (rewrite app_length; destruct w; simpl; [congruence|lia]). lia.
  Qed.
End Layout.

Lemma first_accepts n L (w : word) : (forall p, ~ first_of n L w p) -> forall i, i < n -> ~ L i w.
Proof. intros H. induction i as [i IH] using lt_wf_ind. intros Hi Hl. apply (H i). split; auto. split; auto. intros j Hj. apply IH; auto. lia. Qed.

Theorem C82_layout : forall K T P PErr (parse : P -> hir + PErr) env fuel (patterns : list (P * (list N -> list T -> option K))) hirs t ws,
  parses_wf parse -> env_ok env -> env_honest env -> parsed parse patterns hirs -> build P PErr parse env fuel patterns = BOk (t, ws) ->
  (forall h, In h hirs -> ~ matches (actual h) []) ->
  forall f (sep : N -> Prop),
  (forall h w, In h hirs -> matches (actual h) w -> Forall sep w \/ Forall (fun c => ~ sep c) w) ->
  (forall c, sep c -> exists h, In h hirs /\ matches (actual h) [c]) ->
  (forall p m u, In (p, m) patterns -> u <> [] -> Forall (fun x => sep (f x)) u -> m (map f u) u = None) ->
  forall x y words fuel', in_words f sep x words -> in_words f sep y words -> length x < fuel' -> length y < fuel' ->
  exists ex ey, tok_collect fuel' t f (tokenize_with x) = Ok ex /\ tok_collect fuel' t f (tokenize_with y) = Ok ey /\ somes ex = somes ey.
Proof.
  intros K T P PErr parse env fuel ps hirs t ws W O H Hp Hb Hnn f sep Hpure Hwhite Hdrop x y words fuel' Hx Hy Lx Ly.
  destruct (C56_tokens _ T P PErr parse env fuel ps hirs t ws W O H Hp Hb Hnn f x fuel' Lx) as (tx & ex & A1 & A2 & A3).
  destruct (C56_tokens _ T P PErr parse env fuel ps hirs t ws W O H Hp Hb Hnn f y fuel' Ly) as (ty & ey & B1 & B2 & B3).
  exists ex, ey. split; auto. split; auto. set (acc := first_of (length hirs) (actual_lang hirs)) in *.
  assert (Hne : forall p, ~ acc [] p). { intros p (_ & (h & Hh & Hm) & _). eapply Hnn; [eapply nth_error_In; eauto|auto]. }
  pose (g := fun x : nat * list T => match nth_error ps (fst x) with Some (_, m) => match m (map f (snd x)) (snd x) with Some k => [k] | None => [] end | None => [] end).
  assert (Hg : forall toks es, Forall2 (fun e x => exists p m, nth_error ps (fst x) = Some (p, m) /\ e = m (map f (snd x)) (snd x)) es toks -> somes es = flat_map g toks).
  { induction 1 as [|e z l l' (p & m & E1 & E2) _ IH]; auto. cbn [flat_map]. change (somes (e :: l)) with (match e with Some k => [k] | None => [] end ++ somes l). rewrite IH. f_equal. unfold g. rewrite E1, <- E2. reflexivity. }
  rewrite (Hg _ _ A3), (Hg _ _ B3). apply (munch_layout acc f sep) with (x := x) (y := y) (ws := words); auto.
  - intros w p q (_ & C1 & D1) (_ & C2 & D2). destruct (Nat.lt_trichotomy p q) as [H1|[H1|H1]]; auto; exfalso; [eapply D2|eapply D1]; eauto.
  - intros w p (_ & (h & Hh & Hm) & _). apply (Hpure h); auto. eapply nth_error_In; eauto.
  - intros c Hc. destruct (Hwhite c Hc) as (h & Hh & Hm). apply In_nth_error in Hh as [i Hi].
    intros Hno. apply (first_accepts _ _ _ Hno i); [apply nth_error_Some; congruence|]. exists h. auto.
  - intros p u Ha Hu. unfold g. cbn [fst snd]. destruct (nth_error ps p) as [[q m]|] eqn:Eq; auto. rewrite (Hdrop q m u); auto; [eapply nth_error_In; eauto|].
    intros ->. eapply Hne. exact Ha.
Qed.
Print Assumptions C82_layout.

(** ** Example: the words if, [a-z]+, [0-9]+, and blanks, which are dropped: [if 42] and [  if  42 ] *)
Definition keeping : list (nat * (list N -> list N -> option (nat * list N))) :=
  map (fun i => (i, fun _ u => match u with c :: _ => if (c =? 32)%N then None else Some (i, u) | [] => None end)) (seq 0 4).
Definition drop_tok := match build nat unit (parse_in demo_hirs) plain_env 100 keeping with BOk (t, _) => t | _ => mk_tok [] 0 [] [] end.
Definition if_42 : list N := [105; 102; 32; 52; 50]%N.
Definition if_42_wide : list N := [32; 32; 105; 102; 32; 32; 52; 50; 32]%N.
Lemma not_blank c : (32 <? c)%N = true -> ~ blank c. Proof. intros Hc E0. rewrite E0 in Hc. discriminate. Qed.
Ltac words_tac :=
  repeat first [ apply iw_end | apply iw_sep; [reflexivity|] ].
Ltac word_tac w l nb := apply (iw_word _ _ w l); [discriminate|repeat (apply Forall_cons; [apply nb; reflexivity|]); apply Forall_nil|
  let E0 := fresh in intros ? ? E0; (discriminate E0 || (injection E0; intros; subst; reflexivity))|].
Example C82_example : parses_wf (parse_in demo_hirs) /\ env_ok plain_env /\ env_honest plain_env /\ parsed (parse_in demo_hirs) keeping demo_hirs /\
  (exists ws, build nat unit (parse_in demo_hirs) plain_env 100 keeping = BOk (drop_tok, ws)) /\ (forall h, In h demo_hirs -> ~ matches (actual h) []) /\
  (forall h w, In h demo_hirs -> matches (actual h) w -> Forall blank w \/ Forall (fun c => ~ blank c) w) /\
  (forall c, blank c -> exists h, In h demo_hirs /\ matches (actual h) [c]) /\
  (forall p m u, In (p, m) keeping -> u <> [] -> Forall blank u -> m (map (fun c => c) u) u = None) /\
  in_words (fun c => c) blank if_42 [[105; 102]; [52; 50]]%N /\ in_words (fun c => c) blank if_42_wide [[105; 102]; [52; 50]]%N /\
  tok_collect 100 drop_tok (fun c => c) (tokenize_with if_42) = Ok [Some (0, [105; 102]%N); None; Some (2, [52; 50]%N)] /\
  tok_collect 100 drop_tok (fun c => c) (tokenize_with if_42_wide) = Ok [None; None; Some (0, [105; 102]%N); None; None; Some (2, [52; 50]%N); None].
Proof.
  split; [intros p h; apply (parse_in_wf _ demo_wf)|]. split; [apply plain_ok|]. split; [apply plain_ok|]. split; [repeat constructor|]. split; [eexists; vm_compute; reflexivity|].
  split; [apply C56_tokens_example|]. split; [exact demo_class|]. split; [intros c ->; exists (HLitU 32%N); split; [do 3 right; left; reflexivity|reflexivity]|].
  split. { intros p m u Hi Hu Hb. destruct u as [|c u]; [congruence|]. inversion Hb as [|? ? Hc _]; subst. rewrite Hc. unfold keeping in Hi. apply in_map_iff in Hi as (i & E0 & _). injection E0 as <- <-. reflexivity. }
  split; [word_tac [105; 102]%N [32; 52; 50]%N not_blank; words_tac; word_tac [52; 50]%N (@nil N) not_blank; words_tac|].
  split; [words_tac; word_tac [105; 102]%N [32; 32; 52; 50; 32]%N not_blank; words_tac; word_tac [52; 50]%N [32%N] not_blank; words_tac|].
  split; vm_compute; reflexivity.
Qed.

(** A pattern with a blank in it: [a b] is one token, with two blanks it is two. *)
Definition mixed_hirs : list hir := [HLitU 97%N; HLitU 98%N; HLitU 32%N; HConcat [HLitU 97%N; HLitU 32%N; HLitU 98%N]].
Definition mixed_tok := match build nat unit (parse_in mixed_hirs) plain_env 100 keeping with BOk (t, _) => t | _ => mk_tok [] 0 [] [] end.
Theorem C82_pure_needed : exists hirs t ws, Forall wf_hir hirs /\ parsed (parse_in hirs) keeping hirs /\ build nat unit (parse_in hirs) plain_env 100 keeping = BOk (t, ws) /\
  (forall h, In h hirs -> ~ matches (actual h) []) /\ (forall c, blank c -> exists h, In h hirs /\ matches (actual h) [c]) /\
  (forall p m u, In (p, m) keeping -> u <> [] -> Forall blank u -> m (map (fun c => c) u) u = None) /\
  exists x y words ex ey, in_words (fun c => c) blank x words /\ in_words (fun c => c) blank y words /\
    tok_collect 100 t (fun c => c) (tokenize_with x) = Ok ex /\ tok_collect 100 t (fun c => c) (tokenize_with y) = Ok ey /\ somes ex <> somes ey.
Proof.
  exists mixed_hirs, mixed_tok. eexists. split; [repeat constructor; cbn; try discriminate; auto; lia|]. split; [repeat constructor|]. split; [vm_compute; reflexivity|].
  split. { intros h [<-|[<-|[<-|[<-|[]]]]] Hm; cbn in Hm; try discriminate. destruct Hm as (a & b & E0 & -> & _). discriminate. }
  split; [intros c ->; exists (HLitU 32%N); split; [do 2 right; left; reflexivity|reflexivity]|]. split; [apply C82_example|].
  exists [97; 32; 98]%N, [97; 32; 32; 98]%N, [[97]; [98]]%N. eexists _, _.
  split; [word_tac [97]%N [32; 98]%N not_blank; words_tac; word_tac [98]%N (@nil N) not_blank; words_tac|].
  split; [word_tac [97]%N [32; 32; 98]%N not_blank; words_tac; word_tac [98]%N (@nil N) not_blank; words_tac|].
  split; [vm_compute; reflexivity|]. split; [vm_compute; reflexivity|]. vm_compute. discriminate.
Qed.
Print Assumptions C82_pure_needed.

(** ** The calculator: blanks, tabs and line ends *)
From Verif Require Import Grammar LrModel LrTop ParseModel ParseSpec ParseTop ParseExamples ExModel ExSpec ExLex ExTok ExParse PropEx.
Definition white (c : N) : Prop := c = 32%N \/ (9 <= c <= 13)%N.
Lemma white_or c : white c \/ ~ white c. Proof. unfold white. lia. Qed.
Lemma digits_solid w : digits w -> Forall (fun c => ~ white c) w.
Proof. apply Forall_impl. unfold digit, white. intros c. lia. Qed.
Lemma number_solid w : number_text w -> Forall (fun c => ~ white c) w.
Proof.
  assert (S1 : forall c, (33 <= c)%N -> ~ white c) by (unfold white; lia).
  intros (m & x & -> & Hm & Hx). apply Forall_app. split.
  - destruct Hm as [[_ Hm]|(a & b & -> & Ha & Hb & _)]; [apply digits_solid; auto|]. apply Forall_app. split; [apply digits_solid; auto|]. constructor; [apply S1; lia|apply digits_solid; auto].
  - destruct Hx as [->|(e & s & b & -> & He & Hs & Hb & _)]; [constructor|]. constructor; [apply S1; destruct He as [->| ->]; lia|]. apply Forall_app. split; [|apply digits_solid; auto].
    destruct Hs as [->|[->| ->]]; constructor; try (apply S1; lia); constructor.
Qed.
Lemma lexeme_class w p : first_of 9 lexeme w p -> Forall white w \/ Forall (fun c => ~ white c) w.
Proof.
  assert (S1 : forall c, (33 <= c)%N -> ~ white c) by (unfold white; lia).
  intros (Hp & Hl & _). destruct p as [|[|[|[|[|[|[|[|[|p]]]]]]]]]; [..|lia]; cbn [lexeme] in Hl.
  1: right; apply number_solid; auto.
  1-7: right; subst w; repeat (constructor; [apply S1; lia|]); constructor.
  destruct Hl as (c & -> & _). destruct (white_or c); [left|right]; (apply Forall_cons; [auto|apply Forall_nil]).
Qed.

(** two lines with the same words print the same *)
Theorem C82_calculator : forall F PErr Err (fo : floats F) (parse : String.string -> hir + PErr) env fuel t tws e P ws,
  parses_wf parse -> parsed parse (calc_patterns fo) calc_hirs -> env_ok env -> build_tokenizer fo parse env fuel = BOk (t, tws) ->
  makes e (@calc_syntax F fo Err) P ws -> parses_numbers fo ->
  forall line line' words, in_words (fun c => c) white line words -> in_words (fun c => c) white line' words ->
  exists K out, forall fuel', K <= fuel' -> calc_line t P fuel' line = Ok out /\ calc_line t P fuel' line' = Ok out.
Proof.
  intros F PErr Err fo parse env fuel t tws e P ws W Hp O Hb Hm Hn line line' words Hw Hw'.
  destruct (C48_line F PErr Err fo parse env fuel t tws e P ws W Hp O Hb Hm Hn line) as (ts & Hl & K1 & H1).
  destruct (C48_line F PErr Err fo parse env fuel t tws e P ws W Hp O Hb Hm Hn line') as (ts' & Hl' & K2 & H2).
  assert (Et : ts = ts').
  { pose (g := fun x : nat * list N => match fst x with 0 => match fparse fo (snd x) with Some n => [Number n] | None => [] end | 1 => [Add] | 2 => [Sub] | 3 => [Mul] | 4 => [Div] | 5 => [Bracket] | 6 => [CloseBracket] | 7 => [Sqrt] | _ => [] end).
    assert (Hg : forall l parts, Forall2 (token_of fo) l parts -> concat parts = flat_map g l).
    { induction 1 as [|x part l parts Hx _ IH]; auto. cbn [concat flat_map]. rewrite IH. f_equal. destruct Hx as [w n E0| | | | | | | | ]; try reflexivity. unfold g. cbn [fst snd]. rewrite E0. reflexivity. }
    destruct Hl as (l & parts & A1 & A2 & ->), Hl' as (l' & parts' & B1 & B2 & ->). rewrite (Hg _ _ A2), (Hg _ _ B2).
    apply (munch_layout (first_of 9 lexeme) (fun c => c) white) with (x := line) (y := line') (ws := words); auto.
    - intros p (_ & H & _). exact (lexeme_ne _ _ H eq_refl).
    - intros w p q (_ & C1 & D1) (_ & C2 & D2). destruct (Nat.lt_trichotomy p q) as [H|[H|H]]; auto; exfalso; [eapply D2|eapply D1]; eauto.
    - apply lexeme_class.
    - intros c Hc H. apply (first_accepts _ _ _ H 8); [lia|]. exists c. split; auto. unfold white, max_char in *. lia.
    - intros p u Ha Hu. rewrite map_id in Ha. destruct (lexeme_class u p Ha) as [_|Hs].
      + assert (Hu0 : u <> []) by (intros ->; destruct Ha as (_ & H & _); exact (lexeme_ne _ _ H eq_refl)).
        assert (Hx : forall c, In c u -> white c) by (apply Forall_forall; auto). assert (S1 : forall c, (33 <= c)%N -> ~ white c) by (unfold white; lia).
        destruct Ha as (Hp9 & Ha & _). destruct p as [|[|[|[|[|[|[|[|[|p]]]]]]]]]; [..|lia]; cbn [lexeme] in Ha; try reflexivity; exfalso.
        1: { apply number_solid in Ha. destruct u as [|c u]; [congruence|]. inversion Ha. apply H3, Hx. left. auto. }
        all: subst u; eapply S1; [|apply Hx; left; reflexivity]; lia.
      + exfalso. assert (Hu0 : u <> []) by (intros ->; destruct Ha as (_ & H & _); exact (lexeme_ne _ _ H eq_refl)). destruct u; [congruence|]. inversion Hu; inversion Hs; contradiction. }
  subst ts'. exists (Nat.max K1 K2). destruct (H1 (Nat.max K1 K2) ltac:(lia)) as [(n & N1 & N2)|(N1 & N2)].
  - exists (PNumber n). intros fuel' Hf. split.
    + destruct (H1 fuel' ltac:(lia)) as [(n' & M1 & M2)|(M1 & M2)]; [|exfalso; eapply M1; eauto]. rewrite M2, (C46_one_value _ fo ts n n'); auto.
    + destruct (H2 fuel' ltac:(lia)) as [(n' & M1 & M2)|(M1 & M2)]; [|exfalso; eapply M1; eauto]. rewrite M2, (C46_one_value _ fo ts n n'); auto.
  - exists (PError RNotFound). intros fuel' Hf. split.
    + destruct (H1 fuel' ltac:(lia)) as [(n' & M1 & M2)|(M1 & M2)]; auto. exfalso. eapply N1; eauto.
    + destruct (H2 fuel' ltac:(lia)) as [(n' & M1 & M2)|(M1 & M2)]; auto. exfalso. eapply N1; eauto.
Qed.
Print Assumptions C82_calculator.

From Coq Require Import ZArith.
Lemma not_white c : (32 <? c)%N = true -> ~ white c. Proof. intros Hc. apply N.ltb_lt in Hc. unfold white. lia. Qed.
Ltac whites_tac := repeat first [ apply iw_end | apply iw_sep; [unfold white; lia|] ].
Ltac wword_tac w l := apply (iw_word _ _ w l); [discriminate|repeat (apply Forall_cons; [apply not_white; reflexivity|]); apply Forall_nil|
  let E0 := fresh in intros ? ? E0; (discriminate E0 || (injection E0; intros; subst; unfold white; lia))|].
(** [-3 *2] with tabs and a line end, and without *)
Definition tight : list N := [45; 51; 32; 42; 50]%N.
Definition loose : list N := [9; 45; 51; 32; 9; 42; 50; 10]%N.
Example C82_calculator_example : parses_wf regex /\ parsed regex (calc_patterns ints) calc_hirs /\ (exists ws, build_tokenizer ints regex unlucky_env 1000 = BOk (the_tokenizer, ws)) /\
  makes env0 (@calc_syntax _ ints nat) the_parser [] /\ parses_numbers ints /\
  in_words (fun c => c) white tight [[45; 51]; [42; 50]]%N /\ in_words (fun c => c) white loose [[45; 51]; [42; 50]]%N /\
  calc_line the_tokenizer the_parser 1000 tight = Ok (PNumber (-6)%Z) /\ calc_line the_tokenizer the_parser 1000 loose = Ok (PNumber (-6)%Z).
Proof.
  split; [exact regex_wf|]. split; [exact regex_parsed|]. split; [apply C47_example|]. split; [apply C46_example|]. split; [exact ints_parse|].
  split; [wword_tac [45; 51]%N [32; 42; 50]%N; whites_tac; wword_tac [42; 50]%N (@nil N); whites_tac|].
  split; [whites_tac; wword_tac [45; 51]%N [32; 9; 42; 50; 10]%N; whites_tac; wword_tac [42; 50]%N [10%N]; whites_tac|].
  split; vm_compute; reflexivity.
Qed.
