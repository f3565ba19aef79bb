(** * Properties C33, C34, C36, C40: syntax errors and recovery *)
From Coq Require Import List Arith Lia Bool Sorted.
From Verif Require Import Lib Grammar LrModel LrSpec LrTop ParseModel Trees ParseSpec ParseInv ParseComplete GramFacts ParseTerm ParseTop ParseMore ParseCover ParseFloat ParseAmb ParseExamples PropParse.
Import ListNotations.

(** ** C37: a run with recovery (the theorem is in PropParse.v) *)
Example C37_example : api_syntax nix0 tkix stmts /\ makes env0 stmts P_stmts [] /\ returns tkix P_stmts w_rec (ROk 406) /\
  In (7, [ErrorSym [(kId, 4); (kPlus, 0); (kPlus, 0); (kId, 9)]; Terminal (kSemi, 0)]) (parse_calls tkix P_stmts 100 w_rec).
Proof. split; [apply stmts_api|]. split; [apply stmts_makes|]. split; [exists 100; vm_compute; reflexivity|]. vm_compute. tauto. Qed.

(** ** C33: errors are detected at the first impossible token *)
Theorem C33_no_error_on_sentences : forall N T E (nix : N -> nat) (tix : T -> nat) e (s : syntax N T E) P w fuel,
  api_syntax nix tix s -> makes e s P [] -> derivable tix s w -> parse_errors tix P fuel w = [].
Proof.
  intros N T E nix tix e s P w fuel Ha Hmk Hd. destruct (makes_made nix tix e s P [] Ha Hmk) as [ss Hm].
  apply derivable_tree in Hd as [t Ht]. destruct (made_tree tix s P [] ss w Hm t eq_refl Ht) as (x & L & [m Hl] & _).
  destruct (errors_grow tix P fuel (max fuel m) (ps_init P w) (Nat.le_max_l _ _)) as [l H]. destruct (Hl (max fuel m) (Nat.le_max_r _ _)) as (_ & _ & E0).
  rewrite E0 in H. symmetry in H. apply app_eq_nil in H as [H _]. exact H.
Qed.
Print Assumptions C33_no_error_on_sentences.

(** ** C21, C23 for grammars with error rules *)
Lemma quiet_ok {N T E} (tix : T -> nat) (s : syntax N T E) P ws ss w : made s P ws ss -> forall fuel st v it, quiet tix P w st -> errors tix P fuel st = [] ->
  loop (parse_step tix P) fuel st = Ok (ROk v, it) -> derivable tix s w.
Proof.
  intros Hm. induction fuel as [|fuel IH]; intros st v it Hq He Hl; [discriminate|]. cbn [errors loop] in *.
  apply app_eq_nil in He as [He1 He2]. destruct (step_error tix P st) as [c|] eqn:Es; [discriminate|].
  destruct (parse_step tix P st) as [st'|r] eqn:Ep; [eapply (IH st'); [econstructor; eauto|exact He2|exact Hl]|]. subst r.
  destruct (quiet_inv tix s P ws ss w Hm st Hq) as (g & ts & pos & Hat). pose proof Hat as [Hinv Hlv Hcl _ _].
  destruct (cases tix s P ws ss w Hm _ _ _ _ Hinv) as (d & Hd & Hc). rewrite (err_spec tix s P ws ss w Hm _ _ _ _ _ Hinv Hd) in Es.
  destruct d as [[q|k|]|]; cbn [step_case] in Hc; [| | |discriminate].
  - destruct Hc as (_ & _ & s' & Hs & _). congruence.
  - destruct Hc as [(r & _ & _ & Hs & _)|(r & dd & ts1 & ts2 & args & gen & _ & _ & _ & _ & _ & _ & _ & _ & _ & Hc)]; [congruence|].
    destruct (gen args) as [v'|x|]; [destruct Hc as (s' & Hs & _)|destruct Hc as [it' Hs]|rename Hc into Hs]; congruence.
  - destruct Hc as (_ & Hpos & -> & t & v' & -> & _ & _). pose proof (quiet_twfs tix s P ws ss w Hm _ _ _ _ Hat) as Ht.
    inversion Ht as [|? ? ? ? Ht1 _]; subst. apply (twf_aug tix _ _ _ w (md_fresh _ _ _ _ Hm)) in Ht1. simpl in Hlv, Hcl. rewrite app_nil_r in Hlv. rewrite andb_true_r in Hcl.
    apply derivable_tree. exists t. split; [split; auto|auto].
Qed.
Theorem C21_sound_without_errors : forall N T E (nix : N -> nat) (tix : T -> nat) e (s : syntax N T E) P ws w fuel v,
  api_syntax nix tix s -> makes e s P ws -> parse tix P fuel w = Ok (ROk v) -> parse_errors tix P fuel w = [] -> derivable tix s w.
Proof.
  intros N T E nix tix e s P ws w fuel v Ha Hmk Hpa He. destruct (makes_made nix tix e s P ws Ha Hmk) as [ss Hm].
  unfold parse in Hpa. destruct (parse_full tix P fuel w) as [[o it]| |] eqn:Ef; try discriminate. simpl in Hpa. injection Hpa as ->.
  eapply (quiet_ok tix s P ws ss w Hm fuel (ps_init P w)); eauto. constructor.
Qed.
Print Assumptions C21_sound_without_errors.
(** a run without a syntax error is a run on a sentence *)
Theorem C23_decides_with_recovery_partial : forall N T E (nix : N -> nat) (tix : T -> nat) e (s : syntax N T E) P w,
  api_syntax nix tix s -> makes e s P [] -> productive (gram s) -> errors_apart s -> w <> [] \/ error_free s -> total_on tix s w ->
  exists fuel, (derivable tix s w /\ parse_errors tix P fuel w = [] /\ exists v, parse tix P fuel w = Ok (ROk v)) \/
    (~ derivable tix s w /\ parse_errors tix P fuel w <> [] /\ (parse tix P fuel w = Ok RNotFound \/ exists v, parse tix P fuel w = Ok (ROk v))).
Proof.
  intros N T E nix tix e s P w Ha Hmk Hp Hap Hw Ht0. destruct Ht0 as [ty Ht] eqn:Et. clear Et. pose proof (total_keeps tix s w ty Ht) as Hk. destruct (makes_made nix tix e s P [] Ha Hmk) as [ss Hm].
  destruct (C29_terminates_partial _ _ _ nix tix e s P w Ha Hmk (or_introl (conj Hp Hap))) as [[o [fuel Ho]]|Hpa].
  - exists fuel. assert (Hnr : forall x, o <> RReducer x).
    { intros x ->. pose proof (C25_first_error_wins _ _ _ nix tix e s P [] w fuel Ha Hmk) as H. cbv zeta in H. rewrite Ho in H.
      destruct H as (L & k & args & H1 & _ & H2). destruct (proj1 (C45_typed _ _ _ nix tix e s P [] w ty Ha Hmk Hk fuel) k args) as (r & Hr & Hg & Hty); [rewrite H1; apply in_or_app; simpl; auto|].
      destruct (Ht r args (nth_error_In _ _ Hr) Hg Hty) as (v & Hv & _). unfold call, gens in H2. rewrite nth_error_map, Hr in H2. simpl in H2. congruence. }
    destruct (parse_errors tix P fuel w) as [|er ers] eqn:Ee.
    + left. assert (Hd : derivable tix s w).
      { destruct o as [v| |x]; [eapply C21_sound_without_errors; eauto| |destruct (Hnr x eq_refl)].
        exfalso. clear - Ho Ee Hm. unfold parse in Ho. destruct (parse_full tix P fuel w) as [[o it]| |] eqn:Ef; try discriminate. simpl in Ho. injection Ho as ->.
        unfold parse_full in Ef. unfold parse_errors in Ee. assert (Hinv : exists g ts pos, inv_at tix (gram s) (sx_start s) ss P w (ps_init P w) g ts pos) by (do 3 eexists; apply at_init).
        revert Hinv Ef Ee. generalize (ps_init P w). induction fuel as [|fuel IH]; intros st (g & ts & pos & Hinv) Hl He; [discriminate|]. cbn [errors loop] in *.
        apply app_eq_nil in He as [He1 He2]. destruct (step_error tix P st) as [c|] eqn:Es; [discriminate|].
        destruct (cases tix s P [] ss w Hm _ _ _ _ Hinv) as (d & Hd & Hc). rewrite (err_spec tix s P [] ss w Hm _ _ _ _ _ Hinv Hd) in Es.
        destruct d as [[q|k|]|]; cbn [step_case] in Hc; [| | |discriminate].
        - destruct Hc as (_ & _ & s' & Hs & Hi). rewrite Hs in *. eauto 10.
        - destruct Hc as [(r & _ & _ & Hs & _)|(r & dd & ts1 & ts2 & args & gen & _ & _ & _ & _ & _ & _ & _ & _ & _ & Hc)]; [rewrite Hs in *; discriminate|].
          destruct (gen args) as [v'|x|]; [destruct Hc as (s' & Hs & Hi); rewrite Hs in *; eauto 10|destruct Hc as [it' Hs]; rewrite Hs in *; discriminate|rewrite Hc in *; discriminate].
        - destruct Hc as (_ & _ & _ & t & v' & _ & _ & Hs). rewrite Hs in *. discriminate. }
      split; auto. split; auto. destruct (C22_complete _ _ _ nix tix e s P w Ha Hmk Hd Ht0) as [v Hv]. exists v. rewrite Ho. f_equal. eapply returns_det; [exists fuel; exact Ho|exact Hv].
    + right. split.
      * intros Hd. rewrite (C33_no_error_on_sentences _ _ _ nix tix e s P w fuel Ha Hmk Hd) in Ee. discriminate.
      * split; [discriminate|]. rewrite Ho. destruct o as [v| |x]; [eauto|auto|destruct (Hnr x eq_refl)].
  - exfalso. eapply (C28_no_panic_safe_reducers_partial _ _ _ nix tix e s P [] w ty Ha Hmk Hw Hk); auto.
    intros r args Hr Hg Hty. destruct (Ht r args Hr Hg Hty) as (v & -> & _). discriminate.
Qed.
Print Assumptions C23_decides_with_recovery_partial.
Lemma stmts_total w : total_on tkix stmts w.
Proof.
  exists (fun _ _ => True). intros r args Hr (Hf & _) _. simpl in Hr. repeat destruct Hr as [<-|Hr]; try destruct Hr; simpl in *.
  all: repeat match goal with H : Forall2 _ (_ :: _) _ |- _ => inversion H; clear H; subst | H : Forall2 _ [] _ |- _ => inversion H; clear H; subst
    | H : fits _ _ ?a |- _ => destruct a; simpl in H; try contradiction end.
  all: simpl; eexists; split; [reflexivity|exact I].
Qed.
Example C23_with_recovery_example : api_syntax nix0 tkix stmts /\ makes env0 stmts P_stmts [] /\ productive (gram stmts) /\ errors_apart stmts /\ w_rec <> [] /\ total_on tkix stmts w_rec /\
  parse_errors tkix P_stmts 100 w_rec = [(TSym kPlus, 6); (TSym kPlus, 5); (TSym kPlus, 6); (TSym kId, 7)] /\ parse tkix P_stmts 100 w_rec = Ok (ROk 406).
Proof.
  split; [apply stmts_api|]. split; [apply stmts_makes|]. split; [apply stmts_productive|]. split; [apply stmts_apart|]. split; [discriminate|]. split; [apply stmts_total|].
  split; vm_compute; reflexivity.
Qed.

(** the first error is at the last token taken, and the tokens taken do not begin any sentence *)
Theorem C33_first_impossible_token : forall N T E (nix : N -> nat) (tix : T -> nat) e (s : syntax N T E) P w st k i,
  api_syntax nix tix s -> makes e s P [] -> quiet tix P w st -> step_error tix P st = Some (TSym k, i) ->
  pulled tix st = firstn (S i) w /\ (exists x, nth_error w i = Some x /\ tix x = k) /\
  forall z, ~ der (gram s) (NT (sx_start s)) (kinds tix (pulled tix st) ++ z).
Proof.
  intros N T E nix tix e s P w st k i Ha Hmk Hq He. destruct (makes_made nix tix e s P [] Ha Hmk) as [ss Hm].
  destruct (quiet_inv tix s P [] ss w Hm st Hq) as (g & ts & pos & Hat). pose proof (quiet_pulled tix s P [] ss w Hm _ _ _ _ Hat) as Hpl.
  pose proof Hat as [Hinv _ _ _ Htr]. destruct (cases tix s P [] ss w Hm _ _ _ _ Hinv) as (d & Hd & _).
  rewrite (err_spec tix s P [] ss w Hm _ _ _ _ _ Hinv Hd) in He. destruct d as [a|]; [discriminate|]. injection He as Hk Hi.
  unfold la_at in Hk. destruct (nth_error w pos) as [x|] eqn:Ex; [|discriminate]. injection Hk as Hk.
  assert (Hlt : pos < length w) by (eapply nth_error_Some_lt; eauto). apply Nat.ltb_lt in Hlt as Hb. rewrite Hb in Hi. subst i.
  split; [auto|]. split; [eauto|]. rewrite Hpl.
  apply (stuck_not_prefix tix (gram s) (sx_start s) ss P w (md_len _ _ _ _ Hm) (cf_of s P [] ss Hm eq_refl) pos g Htr Hlt Hd).
Qed.
Print Assumptions C33_first_impossible_token.

(** at the end of the input: the whole input has been taken and is not a sentence *)
Theorem C33_unexpected_end : forall N T E (nix : N -> nat) (tix : T -> nat) e (s : syntax N T E) P w st i,
  api_syntax nix tix s -> makes e s P [] -> quiet tix P w st -> step_error tix P st = Some (TEoi, i) ->
  pulled tix st = w /\ ~ derivable tix s w.
Proof.
  intros N T E nix tix e s P w st i Ha Hmk Hq He. split.
  - destruct (makes_made nix tix e s P [] Ha Hmk) as [ss Hm].
    destruct (quiet_inv tix s P [] ss w Hm st Hq) as (g & ts & pos & Hat). pose proof (quiet_pulled tix s P [] ss w Hm _ _ _ _ Hat) as Hpl.
    pose proof Hat as [Hinv _ _ _ _]. destruct (cases tix s P [] ss w Hm _ _ _ _ Hinv) as (d & Hd & _).
    rewrite (err_spec tix s P [] ss w Hm _ _ _ _ _ Hinv Hd) in He. destruct d as [a|]; [discriminate|]. injection He as Hk Hi.
    unfold la_at in Hk. destruct (nth_error w pos) as [x|] eqn:Ex; [discriminate|]. apply nth_error_None in Ex. rewrite Hpl. apply firstn_all2. lia.
  - intros Hd. destruct (quiet_errors tix P w st Hq) as [n Hn].
    pose proof (C33_no_error_on_sentences _ _ _ nix tix e s P w (n + 1) Ha Hmk Hd) as H. unfold parse_errors in H. rewrite Hn in H. simpl in H. rewrite He in H. discriminate.
Qed.
Print Assumptions C33_unexpected_end.

(** tokens are only shifted while they begin a sentential form; a sentence if every symbol derives something *)
Theorem C33_shifted_viable : forall N T E (nix : N -> nat) (tix : T -> nat) e (s : syntax N T E) P ws w st,
  api_syntax nix tix s -> makes e s P ws -> quiet tix P w st ->
  (exists w', w = shifted st ++ w') /\
  (exists l, rewr (gram s) [NT (sx_start s)] (map TM (kinds tix (shifted st)) ++ l)) /\
  (productive (gram s) -> (exists w0, der (gram s) (NT (sx_start s)) w0) -> exists z, der (gram s) (NT (sx_start s)) (kinds tix (shifted st) ++ z)).
Proof.
  intros N T E nix tix e s P ws w st Ha Hmk Hq. destruct (makes_made nix tix e s P ws Ha Hmk) as [ss Hm].
  destruct (quiet_inv tix s P ws ss w Hm st Hq) as (g & ts & pos & Hat). rewrite (quiet_shifted tix s P ss w _ _ _ _ Hat).
  destruct (quiet_viable tix s P ws ss w Hm _ _ _ _ Hat) as [l Hl]. split; [exists (skipn pos w); symmetry; apply firstn_skipn|]. split; [eauto|].
  intros Hp Hs. eapply viable_derivable; eauto.
Qed.
Print Assumptions C33_shifted_viable.
(** 1 + + 2: the second + is impossible, the parser stands behind 1 + *)
Fixpoint quiet_run {N T E} (tix : T -> nat) (P : parser N T E) (n : nat) (st : pstate N T) : option (pstate N T) :=
  match n with
  | 0 => Some st
  | S n => match step_error tix P st, parse_step tix P st with None, inl st' => quiet_run tix P n st' | _, _ => None end
  end.
Lemma quiet_run_ok {N T E} (tix : T -> nat) (P : parser N T E) w n : forall st st', quiet tix P w st -> quiet_run tix P n st = Some st' -> quiet tix P w st'.
Proof.
  induction n as [|n IH]; intros st st' Hq H; simpl in H; [injection H as <-; auto|].
  destruct (step_error tix P st) eqn:E1; [discriminate|]. destruct (parse_step tix P st) as [st1|] eqn:E2; [|discriminate]. eapply IH; [|exact H]. econstructor; eauto.
Qed.
Example C33_example : exists st, quiet tkix P_expr w_bad st /\ step_error tkix P_expr st = Some (TSym kPlus, 2) /\ shifted st = firstn 2 w_bad.
Proof.
  destruct (quiet_run tkix P_expr 4 (ps_init P_expr w_bad)) as [st|] eqn:Er; [|vm_compute in Er; discriminate].
  exists st. split; [eapply quiet_run_ok; [constructor|exact Er]|]. vm_compute in Er. injection Er as <-. vm_compute. auto.
Qed.

(** ** C34: the error slices *)
Lemma skipn_twice {A} n m (l : list A) : skipn n (skipn m l) = skipn (m + n) l.
Proof. revert l. induction m as [|m IH]; intros l; auto. destruct l; simpl; auto. destruct n; auto. Qed.
Lemma nth_skip {A} n m (l : list A) : nth_error (skipn m l) n = nth_error l (m + n).
Proof. revert l. induction m as [|m IH]; intros l; auto. destruct l; simpl; auto. destruct n; auto. Qed.
Lemma firstn_snoc {A} n (l : list A) x : nth_error l n = Some x -> firstn (S n) l = firstn n l ++ [x].
Proof.
  revert l. induction n as [|n IH]; intros [|y l] H; try discriminate; [simpl in *; congruence|].
  change (y :: firstn (S n) l = y :: (firstn n l ++ [x])). f_equal. auto.
Qed.
Theorem C34_error_slice_partial : forall N T E (nix : N -> nat) (tix : T -> nat) e (s : syntax N T E) P ws w fuel k args sl,
  api_syntax nix tix s -> makes e s P ws -> In (k, args) (parse_calls tix P fuel w) -> In (ErrorSym sl) args ->
  (** the slice ends with the token at which an error was detected *)
  (exists a x b, w = a ++ sl ++ b /\ (exists sl0, sl = sl0 ++ [x]) /\ In (TSym (tix x), length a + length sl - 1) (parse_errors tix P fuel w)) \/
  (** or the error was detected at the end of the input; then it is the first token *)
  (exists i, In (TEoi, i) (parse_errors tix P fuel w) /\ sl = firstn 1 w).
Proof.
  intros N T E nix tix e s P ws w fuel k args sl Ha Hmk Hin Hsl. destruct (makes_made nix tix e s P ws Ha Hmk) as [ss Hm].
  destruct (slices_from tix s P ws ss w Hm fuel _ [] [] 0 [] (at_init tix s P ss w) ltac:(intros lo hi []) _ _ Hin Hsl) as (lo & hi & [Hle Hs] & ->). simpl in Hs.
  destruct Hs as [(k0 & Hk & x & Hx & <-)|(H1 & -> & ->)]; [left|right].
  - assert (Hlt : hi < length w) by (eapply nth_error_Some_lt; eauto).
    assert (Hl : length (firstn (S hi - lo) (skipn lo w)) = S hi - lo) by (rewrite firstn_length, skipn_length; lia).
    exists (firstn lo w), x, (skipn (S hi) w). split; [|split].
    + rewrite <- (firstn_skipn lo w) at 1. f_equal. rewrite <- (firstn_skipn (S hi - lo) (skipn lo w)) at 1. f_equal. rewrite skipn_twice. f_equal. lia.
    + exists (firstn (hi - lo) (skipn lo w)). replace (S hi - lo) with (S (hi - lo)) by lia.
      assert (Hn : nth_error (skipn lo w) (hi - lo) = Some x). { rewrite <- Hx. rewrite nth_skip. f_equal. lia. }
      apply firstn_snoc; auto.
    + rewrite Hl, firstn_length. replace (Nat.min lo (length w) + (S hi - lo) - 1) with hi by lia. exact Hk.
  - exists 0. split; auto.
Qed.
Print Assumptions C34_error_slice_partial.
Example C34_example : api_syntax nix0 tkix stmts /\ makes env0 stmts P_stmts [] /\
  In (7, [ErrorSym [(kId, 4); (kPlus, 0); (kPlus, 0); (kId, 9)]; Terminal (kSemi, 0)]) (parse_calls tkix P_stmts 100 w_rec) /\
  In (TSym kId, 7) (parse_errors tkix P_stmts 100 w_rec).
Proof. split; [apply stmts_api|]. split; [apply stmts_makes|]. split; vm_compute; tauto. Qed.
(** the full claim is false: S ::= x y error on x y; the slice is the first token although the only error is
    at the end of the input *)
Definition g_tail : stx := mk_syntax [rule_new_raw 0 [TM' 0; TM' 1; ER'] r_any] 0.
Definition P_tail : prs := Eval vm_compute in fst (build env0 g_tail).
Theorem C34_error_slice_refuted : exists (s : stx) P w fuel k args, api_syntax nix0 tkix s /\ makes env0 s P [] /\
  In (k, args) (parse_calls tkix P fuel w) /\ In (ErrorSym [(0, 5)]) args /\ w = [(0, 5); (1, 6)] /\ parse_errors tkix P fuel w = [(TEoi, 0)].
Proof.
  exists g_tail, P_tail, [(0, 5); (1, 6)], 100, 0, [Terminal (0, 5); Terminal (1, 6); ErrorSym [(0, 5)]].
  split; [raw|]. split; [mk|]. split; [vm_compute; tauto|]. split; [simpl; auto|]. split; auto.
Qed.
Print Assumptions C34_error_slice_refuted.

(** ** C35: the tokens are accounted for *)
Lemma C35_calls {N T E} (tix : T -> nat) (s : syntax N T E) P ws ss w fuel : made s P ws ss ->
  (forall i, i < length w -> exists lo hi, In (lo, hi) (parse_uses tix P fuel w) /\ lo <= i <= hi) ->
  forall x, In x w -> exists k args, In (k, args) (parse_calls tix P fuel w) /\ (In (Terminal x) args \/ exists sl, In (ErrorSym sl) args /\ In x sl).
Proof.
  intros Hm G x Hx. apply In_nth_error in Hx as [i Hx]. destruct (G i (nth_error_Some_lt _ _ _ Hx)) as (lo & hi & Hin & Hii).
  destruct (uses_called tix s P ws ss w Hm fuel _ (turns_init tix P w) _ Hin) as (k & args & a & Hc & Haa & Hs). exists k, args. split; auto.
  assert (Hxp : In x (part w (lo, hi))).
  { unfold part. cbn [fst snd]. apply (nth_error_In _ (i - lo)). rewrite <- (nth_error_app1 _ (skipn (S hi - lo) (skipn lo w))).
    - rewrite firstn_skipn, nth_skip. replace (lo + (i - lo)) with i by lia. auto.
    - rewrite firstn_length, skipn_length. apply nth_error_Some_lt in Hx. lia. }
  destruct a as [n|y|sl]; simpl in Hs; [discriminate| |]; injection Hs as Hs.
  - rewrite <- Hs in Hxp. destruct Hxp as [->|[]]. auto.
  - right. exists sl. split; [auto|]. rewrite Hs. auto.
Qed.
(** partial: for grammars with the following property.  A nonterminal [A] for which a rule can be completed without a
    first token ([floats], in ParseFloat.v: empty or of error symbols, possibly through other nonterminals) does not come
    where an error symbol can come ([g]: the symbols before it), unless nothing can come behind [A] *)
Theorem C35_where_recovery_starts_partial : forall N T E (nix : N -> nat) (tix : T -> nat) e (s : syntax N T E) P ws w fuel v,
  api_syntax nix tix s -> makes e s P ws ->
  (forall g A X, wants (p_rules (pr_tab P)) (length (gram s)) g (TM TErr) -> floats (gram s) A ->
     ~ wants (p_rules (pr_tab P)) (length (gram s)) (g ++ [NT A]) X) ->
  parse tix P fuel w = Ok (ROk v) ->
  (** every position is one of a token or of an error slice given to a reducer *)
  (forall i, i < length w -> exists lo hi, In (lo, hi) (parse_uses tix P fuel w) /\ lo <= i <= hi) /\
  (** so every token is an argument of a reducer call or in an error slice *)
  (forall x, In x w -> exists k args, In (k, args) (parse_calls tix P fuel w) /\ (In (Terminal x) args \/ exists sl, In (ErrorSym sl) args /\ In x sl)).
Proof.
  intros N T E nix tix e s P ws w fuel v Ha Hmk Hfl Hp. destruct (makes_made nix tix e s P ws Ha Hmk) as [ss Hm].
  unfold parse in Hp. apply bind_Ok in Hp as ([o it] & Hp & Ho). cbn [fst] in Ho. injection Ho as ->. rewrite (can_rules _ _ _ (md_can _ _ _ _ Hm)) in Hfl.
  assert (G : forall i, i < length w -> exists lo hi, In (lo, hi) (parse_uses tix P fuel w) /\ lo <= i <= hi).
  { intros i Hi. destruct (fcov_run tix s P ws ss w Hm Hfl fuel [] _ 0 v it (fcov_init tix s P ss w) Hp i Hi) as ([lo hi] & Hin & Hii). exists lo, hi. split; auto. }
  split; [exact G|]. eapply C35_calls; eauto.
Qed.
Print Assumptions C35_where_recovery_starts_partial.
(** list ::= (nothing) | list stmt, stmt ::= x y | error y: the list floats, but no error symbol can come where it comes *)
Definition g_left : stx := mk_syntax [rule_new_raw 0 [] r_any; rule_new_raw 0 [NT' 0; NT' 1] r_any; rule_new_raw 1 [TM' 0; TM' 1] r_any; rule_new_raw 1 [ER'; TM' 1] r_any] 0.
Definition P_left : prs := Eval vm_compute in fst (build env0 g_left).
(** list ::= (nothing) | stmt list: the list comes where an error symbol can come, but nothing can come behind it *)
Definition g_right : stx := mk_syntax [rule_new_raw 0 [] r_any; rule_new_raw 0 [NT' 1; NT' 0] r_any; rule_new_raw 1 [TM' 0; TM' 1] r_any; rule_new_raw 1 [ER'; TM' 1] r_any] 0.
Definition P_right : prs := Eval vm_compute in fst (build env0 g_right).
Lemma left_makes : makes env0 g_left P_left []. Proof. mk. Qed.
Lemma right_makes : makes env0 g_right P_right []. Proof. mk. Qed.
Lemma left_api : api_syntax nix0 tkix g_left. Proof. raw. Qed.
Lemma right_api : api_syntax nix0 tkix g_right. Proof. raw. Qed.
Example C35_where_example_left : api_syntax nix0 tkix g_left /\ makes env0 g_left P_left [] /\ floats (gram g_left) 0 /\
  (forall g A X, wants (p_rules (pr_tab P_left)) (length (gram g_left)) g (TM TErr) -> floats (gram g_left) A -> ~ wants (p_rules (pr_tab P_left)) (length (gram g_left)) (g ++ [NT A]) X) /\
  exists v, parse tkix P_left 100 [(0, 1); (1, 2); (0, 3); (0, 4); (1, 5); (0, 6); (1, 7)] = Ok (ROk v).
Proof.
  split; [apply left_api|]. split; [apply left_makes|]. split; [apply (floats_none _ (mk_rule 0 [])); [left; reflexivity|constructor]|].
  destruct (makes_made nix0 tkix env0 g_left P_left [] left_api left_makes) as [ss Hm]. split; [|eexists; vm_compute; reflexivity].
  rewrite (can_rules _ _ _ (md_can _ _ _ _ Hm)). apply (float_ok_spec g_left P_left [] ss [0] Hm); vm_compute; reflexivity.
Qed.
Example C35_where_example_right : api_syntax nix0 tkix g_right /\ makes env0 g_right P_right [] /\ floats (gram g_right) 0 /\
  wants (p_rules (pr_tab P_right)) (length (gram g_right)) [] (TM TErr) /\ wants (p_rules (pr_tab P_right)) (length (gram g_right)) [] (NT 0) /\
  (forall g A X, wants (p_rules (pr_tab P_right)) (length (gram g_right)) g (TM TErr) -> floats (gram g_right) A -> ~ wants (p_rules (pr_tab P_right)) (length (gram g_right)) (g ++ [NT A]) X) /\
  exists v, parse tkix P_right 100 [(0, 1); (1, 2); (0, 3); (0, 4); (1, 5); (0, 6); (1, 7)] = Ok (ROk v).
Proof.
  split; [apply right_api|]. split; [apply right_makes|]. split; [apply (floats_none _ (mk_rule 0 [])); [left; reflexivity|constructor]|].
  destruct (makes_made nix0 tkix env0 g_right P_right [] right_api right_makes) as [ss Hm].
  assert (W : forall X, (exists q, next_state (pr_tab P_right) (p_start (pr_tab P_right)) X = Some q) -> wants (p_rules (pr_tab P_right)) (length (gram g_right)) [] X).
  { intros X [q Hq]. rewrite (can_rules _ _ _ (md_can _ _ _ _ Hm)). apply wants_valid. apply (can_state _ _ _ (md_can _ _ _ _ Hm)). exists q. unfold state_of. cbn [app run]. rewrite Hq. reflexivity. }
  split; [apply W; eexists; vm_compute; reflexivity|]. split; [apply W; eexists; vm_compute; reflexivity|]. split; [|eexists; vm_compute; reflexivity].
  rewrite (can_rules _ _ _ (md_can _ _ _ _ Hm)). apply (float_ok_spec g_right P_right [] ss [0] Hm); vm_compute; reflexivity.
Qed.
(** in particular: for grammars in which every rule has a token or a nonterminal on its right-hand side *)
Theorem C35_every_token_seen_partial : forall N T E (nix : N -> nat) (tix : T -> nat) e (s : syntax N T E) P ws w fuel v,
  api_syntax nix tix s -> makes e s P ws -> (forall r, In r (gram s) -> exists X, In X (r_rhs r) /\ X <> TM TErr) ->
  parse tix P fuel w = Ok (ROk v) ->
  (forall i, i < length w -> exists lo hi, In (lo, hi) (parse_uses tix P fuel w) /\ lo <= i <= hi) /\
  (forall x, In x w -> exists k args, In (k, args) (parse_calls tix P fuel w) /\ (In (Terminal x) args \/ exists sl, In (ErrorSym sl) args /\ In x sl)).
Proof.
  intros N T E nix tix e s P ws w fuel v Ha Hmk Hanc. apply (C35_where_recovery_starts_partial N T E nix tix e s P ws); auto.
  intros g A X _ HA. destruct (anchored_floats _ _ Hanc HA).
Qed.
Print Assumptions C35_every_token_seen_partial.
Example C35_example : api_syntax nix0 tkix stmts /\ makes env0 stmts P_stmts [] /\ (forall r, In r (gram stmts) -> exists X, In X (r_rhs r) /\ X <> TM TErr) /\
  parse tkix P_stmts 100 w_rec = Ok (ROk 406) /\ In (TSym kId, 7) (parse_errors tkix P_stmts 100 w_rec).
Proof.
  split; [apply stmts_api|]. split; [apply stmts_makes|]. split; [|split; vm_compute; tauto].
  intros r Hr. unfold gram, stmts, stmts_plain in Hr. simpl in Hr. repeat destruct Hr as [<-|Hr]; try destruct Hr; simpl; eexists; (split; [eauto|]); discriminate.
Qed.
(** the full claim is false: S ::= A x x y | error y, A ::= (nothing) on x y y; the empty nonterminal A is thought to
    start behind the lookahead, so the recovery skips x without putting it into the slice *)
Definition g_lost : stx := mk_syntax [rule_new_raw 0 [NT' 1; TM' 0; TM' 0; TM' 1] r_any; rule_new_raw 0 [ER'; TM' 1] r_any; rule_new_raw 1 [] r_any] 0.
Definition P_lost : prs := Eval vm_compute in fst (build env0 g_lost).
Theorem C35_every_token_seen_refuted : exists (s : stx) P w fuel v x, api_syntax nix0 tkix s /\ makes env0 s P [] /\ parse tkix P fuel w = Ok (ROk v) /\ In x w /\
  forall k args, In (k, args) (parse_calls tkix P fuel w) -> ~ In (Terminal x) args /\ forall sl, In (ErrorSym sl) args -> ~ In x sl.
Proof.
  exists g_lost, P_lost, [(0, 5); (1, 6); (1, 7)], 100, 2, (0, 5). split; [raw|]. split; [mk|]. split; [vm_compute; reflexivity|]. split; [left; auto|].
  intros k args H. assert (E0 : parse_calls tkix P_lost 100 [(0, 5); (1, 6); (1, 7)] = [(2, []); (1, [ErrorSym [(1, 6)]; Terminal (1, 7)])]) by (vm_compute; reflexivity).
  rewrite E0 in H. destruct H as [H|[H|[]]]; injection H as <- <-; simpl; split; [tauto|intros sl []|intuition discriminate|]. intros sl [H|[H|[]]]; try discriminate. injection H as <-. simpl. intuition discriminate.
Qed.
Print Assumptions C35_every_token_seen_refuted.
(** so do blocks: block ::= { list }, list ::= (nothing) | stmt list, stmt ::= x ; | error ; | block on { } } ; }: the first }
    is popped with the empty list in front of it, which is thought to start behind it *)
Definition g_blocks : stx := mk_syntax [rule_new_raw 0 [TM' 0; NT' 1; TM' 1] r_any; rule_new_raw 1 [] r_any; rule_new_raw 1 [NT' 2; NT' 1] r_any;
  rule_new_raw 2 [TM' 2; TM' 3] r_any; rule_new_raw 2 [ER'; TM' 3] r_any; rule_new_raw 2 [NT' 0] r_any] 0.
Definition P_blocks : prs := Eval vm_compute in fst (build env0 g_blocks).
Theorem C35_blocks_refuted : api_syntax nix0 tkix g_blocks /\ makes env0 g_blocks P_blocks [] /\
  exists v, parse tkix P_blocks 100 [(0, 11); (1, 12); (1, 13); (3, 14); (1, 15)] = Ok (ROk v) /\
  forall k args, In (k, args) (parse_calls tkix P_blocks 100 [(0, 11); (1, 12); (1, 13); (3, 14); (1, 15)]) ->
    ~ In (Terminal (1, 12)) args /\ forall sl, In (ErrorSym sl) args -> ~ In (1, 12) sl.
Proof.
  split; [raw|]. split; [mk|]. eexists. split; [vm_compute; reflexivity|].
  remember (parse_calls tkix P_blocks 100 [(0, 11); (1, 12); (1, 13); (3, 14); (1, 15)]) as l eqn:El. vm_compute in El. subst l.
  intros k args H. simpl in H. repeat destruct H as [H|H]; try (injection H as <- <-); try destruct H; simpl; (split; [intuition discriminate|]); intros sl Hsl;
    repeat destruct Hsl as [Hsl|Hsl]; try discriminate; try (injection Hsl as <-; simpl; intuition discriminate); destruct Hsl.
Qed.
Print Assumptions C35_blocks_refuted.

(** ** C36: unexpected end of input *)
Theorem C36_unexpected_end : forall N T E (nix : N -> nat) (tix : T -> nat) e (s : syntax N T E) P ws w st i g,
  api_syntax nix tix s -> makes e s P ws -> turns tix P w st -> step_error tix P st = Some (TEoi, i) ->
  (** [g]: the symbols on the stack; no rule has its error symbol next behind them *)
  state_of (pr_tab P) g = Some (ps_state st) -> (forall k, ~ wants_error (p_rules (pr_tab P)) (length (gram s)) g k) ->
  returns tix P w RNotFound.
Proof.
  intros N T E nix tix e s P ws w st i g Ha Hmk Ht He Hg Hno. destruct (makes_made nix tix e s P ws Ha Hmk) as [ss Hm].
  assert (Hread : ps_state (ps_read tix st) = ps_state st) by (unfold ps_read; destruct (ps_buf st); auto; destruct (ps_iter st); auto).
  assert (Herr : aget eqb (ps_state st) (p_errors (pr_tab P)) = None).
  { pose proof (can_errors _ _ _ (md_can _ _ _ _ Hm) _ _ Hg) as H. destruct (aget eqb (ps_state st) (p_errors (pr_tab P))) as [ks|]; auto. exfalso.
    destruct H as [H1 H2]. destruct ks as [|k ks]; [congruence|]. apply (Hno k). rewrite (can_rules _ _ _ (md_can _ _ _ _ Hm)). apply H2. left. auto. }
  assert (Hs : exists it, parse_step tix P st = inr (Ok (RNotFound, it))).
  { unfold step_error in He. unfold parse_step. cbv zeta. destruct (ps_buf (ps_read tix st)) as [|[t j] buf]; [discriminate|].
    destruct (act (pr_tab P) (ps_state (ps_read tix st)) t) as [[a|]| |]; try discriminate. injection He as -> ->.
    assert (G : forall (stk : list (nat * entry N)) back c h eh, (back = false -> aget eqb c (p_errors (pr_tab P)) = None) -> recover (pr_tab P) true (ps_rec (ps_read tix st)) back c h eh stk = None).
    { induction stk as [|[q en] stk IH]; intros back c h eh Hb; cbn [recover]; destruct back; simpl; try rewrite (Hb eq_refl); auto; destruct en; apply IH; discriminate. }
    rewrite G; [eauto|]. intros _. rewrite Hread. auto. }
  destruct Hs as [it Hs]. destruct (turns_end tix P w st _ Ht Hs) as [fuel Hf]. apply returns_full. eauto.
Qed.
Print Assumptions C36_unexpected_end.
(** 1 + at the end of the input, although a statement may be skipped *)
Fixpoint turn_run {N T E} (tix : T -> nat) (P : parser N T E) (n : nat) (st : pstate N T) : option (pstate N T) :=
  match n with 0 => Some st | S n => match parse_step tix P st with inl st' => turn_run tix P n st' | _ => None end end.
Lemma turn_run_ok {N T E} (tix : T -> nat) (P : parser N T E) w n : forall st st', turns tix P w st -> turn_run tix P n st = Some st' -> turns tix P w st'.
Proof.
  induction n as [|n IH]; intros st st' Hq H; simpl in H; [injection H as <-; auto|].
  destruct (parse_step tix P st) as [st1|] eqn:E2; [|discriminate]. eapply IH; [|exact H]. econstructor; eauto.
Qed.
Example C36_example : exists st, turns tkix P_stmts [(kId, 1); (kPlus, 0)] st /\ step_error tkix P_stmts st = Some (TEoi, 0) /\
  state_of (pr_tab P_stmts) [NT nE; TM (TSym kPlus)] = Some (ps_state st) /\
  forall k, ~ wants_error (p_rules (pr_tab P_stmts)) (length (gram stmts)) [NT nE; TM (TSym kPlus)] k.
Proof.
  destruct (turn_run tkix P_stmts 4 (ps_init P_stmts [(kId, 1); (kPlus, 0)])) as [st|] eqn:Er; [|vm_compute in Er; discriminate].
  exists st. split; [eapply turn_run_ok; [constructor|exact Er]|]. vm_compute in Er. injection Er as <-. split; [vm_compute; reflexivity|]. split; [vm_compute; reflexivity|].
  destruct (makes_made nix0 tkix env0 stmts P_stmts [] stmts_api stmts_makes) as [ss Hm].
  pose proof (can_errors _ _ _ (md_can _ _ _ _ Hm) [NT nE; TM (TSym kPlus)]) as H. intros k Hk. rewrite (can_rules _ _ _ (md_can _ _ _ _ Hm)) in Hk.
  destruct (state_of (pr_tab P_stmts) [NT nE; TM (TSym kPlus)]) as [q|] eqn:Eq; [|vm_compute in Eq; discriminate]. specialize (H q eq_refl).
  vm_compute in Eq. injection Eq as <-. apply (H k Hk).
Qed.

(** ** C40: adding rules without causing warnings *)
Theorem C40_added_rules_do_not_disturb : forall N T E (nix : N -> nat) (tix : T -> nat) e1 e2 (s1 s2 : syntax N T E) P1 P2 w,
  api_syntax nix tix s1 -> api_syntax nix tix s2 -> makes e1 s1 P1 [] -> makes e2 s2 P2 [] ->
  incl (sx_rules s1) (sx_rules s2) -> sx_start s1 = sx_start s2 -> ~ cyclic (gram s2) (sx_start s2) -> derivable tix s1 w ->
  (forall o, returns tix P1 w o <-> returns tix P2 w o) /\ (panics tix P1 w <-> panics tix P2 w) /\ ((exists o, returns tix P1 w o) \/ panics tix P1 w).
Proof.
  intros N T E nix tix e1 e2 s1 s2 P1 P2 w Ha1 Ha2 Hm1 Hm2 Hi Hst Hc Hd.
  assert (Hc1 : ~ cyclic (gram s1) (sx_start s1)) by (intros H; apply Hc; eapply cyclic_add; eauto).
  apply derivable_tree in Hd as [t Ht]. pose proof Ht as [[Hw Hl] Hcl].
  destruct (proj1 (tree_map tix s1 s2 w Hi) _ _ Hw) as (t' & Hw' & Hl' & Hcl' & Hev).
  assert (Ht' : proper_tree tix s2 w t') by (split; [split; [rewrite <- Hst; auto|congruence]|congruence]).
  destruct (C25_evaluation _ _ _ nix tix e1 s1 P1 w t Ha1 Hm1 Hc1 Ht) as [Y1 _]. destruct (C25_evaluation _ _ _ nix tix e2 s2 P2 w t' Ha2 Hm2 Hc Ht') as [Y2 _].
  rewrite Hev in Y2. destruct (ev (gens s1) w t) as [[v|x|l]|x|]; simpl in Y1, Y2; try contradiction.
  - split; [|split; [|eauto]].
    + intros o. split; intros H; [rewrite (returns_det tix P1 w _ _ H Y1)|rewrite (returns_det tix P2 w _ _ H Y2)]; auto.
    + split; intros H; exfalso; [exact (returns_no_panic tix P1 w _ Y1 H)|exact (returns_no_panic tix P2 w _ Y2 H)].
  - split; [|split; [|eauto]].
    + intros o. split; intros H; [rewrite (returns_det tix P1 w _ _ H Y1)|rewrite (returns_det tix P2 w _ _ H Y2)]; auto.
    + split; intros H; exfalso; [exact (returns_no_panic tix P1 w _ Y1 H)|exact (returns_no_panic tix P2 w _ Y2 H)].
  - split; [|split; [tauto|auto]]. intros o. split; intros H; exfalso; [exact (returns_no_panic tix P1 w _ H Y1)|exact (returns_no_panic tix P2 w _ H Y2)].
Qed.
Print Assumptions C40_added_rules_do_not_disturb.
(** a decidable reason for a grammar not to be cyclic: every rule of a symbol of rank n has a token or consists of one symbol of smaller rank *)
Lemma ranked_not_cyclic rs (rank : nat -> nat) A :
  Forall (fun r => (exists t, In (TM t) (r_rhs r)) \/ 2 <= length (r_rhs r) \/ (exists B, r_rhs r = [NT B] /\ rank B < rank (r_lhs r))) rs ->
  Forall (fun r => r_rhs r <> []) rs -> ~ cyclic rs A.
Proof.
  intros H Hne (r & Hr & Hl & Hrw). rewrite Forall_forall in H, Hne.
  assert (G : forall l l', rewr rs l l' -> (exists t, In (TM t) l) \/ 2 <= length l \/ (exists B, l = [NT B] /\ rank B < rank A) ->
    (exists t, In (TM t) l') \/ 2 <= length l' \/ (exists B, l' = [NT B] /\ rank B < rank A)).
  { intros l l' H0. induction H0 as [l|l1 r0 l2 l' Hr0 H0 IH]; auto. intros [(t & Ht)|[Hlen|(B & HB & Hlt)]]; apply IH.
    - left. exists t. rewrite in_app_iff in Ht. simpl in Ht. rewrite !in_app_iff. destruct Ht as [Ht|[Ht|Ht]]; auto. discriminate.
    - right. left. rewrite !app_length in *. simpl in Hlen. specialize (Hne _ Hr0). destruct (r_rhs r0); [congruence|]. simpl. lia.
    - destruct l1 as [|a l1]; simpl in HB; [|injection HB as _ HB; destruct l1; discriminate]. injection HB as HA ->. simpl. rewrite app_nil_r.
      destruct (H _ Hr0) as [?|[?|(C & HC & HCl)]]; auto. right. right. exists C. split; auto. rewrite HA in HCl. lia. }
  destruct (G _ _ Hrw) as [(t & [Ht|[]])|[Hlen|(B & HB & Hlt)]]; [|discriminate|simpl in Hlen; lia|injection HB as <-; lia].
  rewrite <- Hl. apply H. auto.
Qed.
Lemma stmts_not_cyclic : ~ cyclic (gram stmts) (sx_start stmts).
Proof.
  apply (ranked_not_cyclic _ (fun n => match n with 2 => 3 | 3 => 2 | 0 => 1 | _ => 0 end)); unfold stmts, stmts_plain, gram; simpl;
    repeat apply Forall_cons; try apply Forall_nil; simpl; try discriminate; try (right; left; lia); try (left; eexists; simpl; eauto; fail); right; right; eexists; (split; [reflexivity|cbv; lia]).
Qed.
Example C40_example : api_syntax nix0 tkix stmts0 /\ api_syntax nix0 tkix stmts /\ makes env0 stmts0 P_stmts0 [] /\ makes env0 stmts P_stmts [] /\
  incl (sx_rules stmts0) (sx_rules stmts) /\ ~ error_free stmts /\ ~ cyclic (gram stmts) (sx_start stmts) /\ derivable tkix stmts0 w_stmts /\ returns tkix P_stmts w_stmts (ROk 6).
Proof.
  split; [apply stmts0_api|]. split; [apply stmts_api|]. split; [apply stmts0_makes|]. split; [apply stmts_makes|]. split; [apply incl_appl, incl_refl|].
  split; [intros H; apply (H (mk_rule nSt [TM TErr; TM (TSym kSemi)])); simpl; tauto|]. split; [apply stmts_not_cyclic|].
  split; [apply derivable_tree; exists t_stmts; apply t_stmts0_tree|]. exists 100. vm_compute. reflexivity.
Qed.
