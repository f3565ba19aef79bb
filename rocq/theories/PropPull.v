(** * Properties C57-C59: arbitrary iterators; from text to value

    The iterators of these theorems are arbitrary: [pull] is the [next] of one, [src] the state it is in. *)
From Coq Require Import List Arith Lia Bool NArith ZArith String.
From Verif Require Import Lib Hir NfaPath NfaSem NfaModel NfaProofs NfaExact TokNfa DfaModel DfaEdges DfaProofs DfaTop MinModel MinProofs MinTop TokModel TokSpec TokProofs TokTop TokMore MinSafe TokExamples PropTok PropBuild ActualSpec PropActual
  Grammar LrModel LrSpec LrTop ParseModel Trees ParseSpec ParseTop ParseMore ParseExamples PropParse ExModel ExSpec ExLex ExTok ExParse PropEx PullModel PullSpec PullProofs.
Import ListNotations.
Local Open Scope list_scope.
Local Open Scope nat_scope.
Local Notation length := List.length.

(** ** C57: parse on any iterator *)
(** [parse] takes some tokens [u] from the iterator, and then it is in one of four cases: it has decided
    without asking whether there are more; it has asked once more and the iterator was at its end; this call
    has panicked; or this call does not return.  In the first two cases it does what it does on the list of these
    tokens, and the iterator is left just behind the last call.  So it never asks again after the end. *)
Theorem C57_any_iterator : forall V T E S (nix : V -> nat) (tix : T -> nat) e (s : syntax V T E) P ws (pull : S -> res (option T * S)),
  api_syntax nix tix s -> makes e s P ws -> forall fuel src,
  let r := parse_pull tix pull P fuel src in
  exists u src1, pulls pull src u src1 /\
    ((forall z, match r with Ok (o, src') => src' = src1 /\ parse_full tix P fuel (u ++ z) = Ok (o, z) | Panic => parse_full tix P fuel (u ++ z) = Panic | OutOfFuel => parse_full tix P fuel (u ++ z) = OutOfFuel end) \/
     (exists src2, pull src1 = Ok (None, src2) /\
        match r with Ok (o, src') => src' = src2 /\ parse_full tix P fuel u = Ok (o, []) | Panic => parse_full tix P fuel u = Panic | OutOfFuel => parse_full tix P fuel u = OutOfFuel end) \/
     (r = Panic /\ pull src1 = Panic /\ forall z o, z <> [] -> parse_full tix P fuel (u ++ z) <> Ok (o, z)) \/
     (r = OutOfFuel /\ pull src1 = OutOfFuel /\ forall z o, z <> [] -> parse_full tix P fuel (u ++ z) <> Ok (o, z))).
Proof.
  intros V T E S nix tix e s P ws pull Ha Hmk fuel src r. destruct (makes_made nix tix e s P ws Ha Hmk) as [ss Hm].
  exact (sim_init tix pull s P ws ss Hm fuel src).
Qed.
Print Assumptions C57_any_iterator.

(** an iterator that delivers the tokens [w] and then says that it has ended, whatever it would say after that *)
Theorem C57_finite : forall V T E S (nix : V -> nat) (tix : T -> nat) e (s : syntax V T E) P ws (pull : S -> res (option T * S)),
  api_syntax nix tix s -> makes e s P ws -> forall src w src', delivers pull src w src' ->
  forall fuel, (do r <- parse_pull tix pull P fuel src; Ok (fst r)) = parse tix P fuel w.
Proof.
  intros V T E S nix tix e s P ws pull Ha Hmk src w src' Hd fuel. destruct (makes_made nix tix e s P ws Ha Hmk) as [ss Hm].
  pose proof (sim_delivers tix pull s P ws ss Hm src w src' Hd fuel) as H. unfold parse. destruct (parse_full tix P fuel w) as [[o rest]| |]; cbn [bind fst].
  - destruct H as (u & x & _ & -> & _). reflexivity.
  - rewrite H. reflexivity.
  - rewrite H. reflexivity.
Qed.
Print Assumptions C57_finite.

(** an iterator that delivers 1 + 2 and, asked again after its end, panics; an endless one, 1 + + + ... *)
Definition pull_nasty (n : nat) : res (option tk * nat) :=
  match n with 0 => Ok (Some (kId, 1), 1) | 1 => Ok (Some (kPlus, 0), 2) | 2 => Ok (Some (kId, 2), 3) | 3 => Ok (None, 4) | _ => Panic end.
Definition pull_endless (n : nat) : res (option tk * nat) :=
  match n with 0 => Ok (Some (kId, 1), 1) | S m => Ok (Some (kPlus, 0), S n) end.
Example C57_example : api_syntax nix0 tkix expr /\ makes env0 expr P_expr [] /\ delivers pull_nasty 0 [(kId, 1); (kPlus, 0); (kId, 2)] 4 /\
  (exists v, parse_pull tkix pull_nasty P_expr 100 0 = Ok (ROk v, 4)) /\ parse_pull tkix pull_endless P_expr 100 0 = Ok (RNotFound, 3).
Proof.
  split; [apply expr_api|]. split; [apply expr_makes|]. split; [exists 3; split; [repeat econstructor|reflexivity]|]. split; [eexists|]; vm_compute; reflexivity.
Qed.

(** ** C58: next of the token iterator, on any iterator and with any closure *)
(** The pushed back items come first.  The call looks at the items [q1 ++ u]: [q1] were pushed back, [u] are
    taken from the iterator, which happens only if no pushed back item is left.  The closure is called once on
    each, in order.  The scan stops at the first item on which the automaton is stuck, or at the end of the
    iterator.  The token is made from the longest prefix of these items that is accepted; the others are
    pushed back.  If no prefix is accepted the result is [None], and the items are lost. *)
Theorem C58_any_iterator : forall E T S M (pull : S -> res (option T * S)) (mapf : M -> T -> res (N * M)) (t : tokenizer E T), tok_ok t ->
  forall fuel g o g', gnext pull mapf t fuel g = Ok (o, g') ->
  exists q1 q2 u cs,
    gi_queue g = q1 ++ q2 /\ (q2 = [] \/ u = []) /\ mapped mapf (gi_map g) (q1 ++ u) cs (gi_map g') /\
    (forall k, k < length cs -> tok_run t (firstn k cs) <> None) /\
    ((tok_run t cs = None /\ pulls pull (gi_src g) u (gi_src g')) \/ (tok_run t cs <> None /\ q2 = [] /\ delivers pull (gi_src g) u (gi_src g'))) /\
    match o with
    | Some e => exists k p m, k <= length cs /\ tok_accepts t (firstn k cs) p /\ (forall k' p', k < k' <= length cs -> ~ tok_accepts t (firstn k' cs) p') /\
        nth_error (tk_makers t) p = Some m /\ e = m (firstn k cs) (firstn k (q1 ++ u)) /\ gi_queue g' = skipn k (q1 ++ u) ++ q2
    | None => (forall k p, k <= length cs -> ~ tok_accepts t (firstn k cs) p) /\ gi_queue g' = q2
    end.
Proof. intros E T S M pull mapf t Ht fuel g o g' H. pose proof (gnext_ok pull mapf t Ht fuel g) as G. rewrite H in G. exact G. Qed.
Print Assumptions C58_any_iterator.
(** it panics only if the iterator or the closure does *)
Theorem C58_panic : forall E T S M (pull : S -> res (option T * S)) (mapf : M -> T -> res (N * M)) (t : tokenizer E T), tok_ok t ->
  forall fuel g, gnext pull mapf t fuel g = Panic ->
  (exists u src1, pulls pull (gi_src g) u src1 /\ pull src1 = Panic) \/ (exists l cs m x, mapped mapf (gi_map g) l cs m /\ mapf m x = Panic).
Proof.
  intros E T S M pull mapf t Ht fuel g H. pose proof (gnext_ok pull mapf t Ht fuel g) as G. rewrite H in G.
  destruct G as (q1 & u & [(src1 & H1 & H2 & [[H3 H4]|[H3 H4]])|[(cs & m & x & H1 & [[H2 H3]|[H2 H3]])|(H1 & H2)]]); try discriminate; eauto 10.
Qed.
Print Assumptions C58_panic.
(** it returns after at most [n] items, if the iterator and the closure answer every call and the iterator ends
    within these *)
Theorem C58_returns : forall E T S M (pull : S -> res (option T * S)) (mapf : M -> T -> res (N * M)) (t : tokenizer E T), tok_ok t ->
  (forall x, exists r, pull x = Ok r) -> (forall m x, exists r, mapf m x = Ok r) ->
  forall g l src', delivers pull (gi_src g) l src' -> forall fuel, length (gi_queue g) + length l < fuel -> exists r, gnext pull mapf t fuel g = Ok r.
Proof.
  intros E T S M pull mapf t Ht Hp Hf g l src' (src1 & Hl & He) fuel Hlt. pose proof (gnext_ok pull mapf t Ht fuel g) as G.
  destruct (gnext pull mapf t fuel g) as [r| |]; [eauto|exfalso..].
  - destruct G as (q1 & u & [(s1 & H1 & H2 & [[H3 H4]|[H3 H4]])|[(cs & m & x & H1 & [[H2 H3]|[H2 H3]])|(H1 & H2)]]); try discriminate.
    + destruct (Hp s1). congruence.
    + destruct (Hf m x). congruence.
  - destruct G as (q1 & u & [(s1 & H1 & H2 & [[H3 H4]|[H3 H4]])|[(cs & m & x & H1 & [[H2 H3]|[H2 H3]])|(H1 & s1 & q2 & H2 & H3 & H4)]]); try discriminate.
    + destruct (Hp s1). congruence.
    + destruct (Hf m x). congruence.
    + rewrite H3 in Hlt. rewrite app_length in *. destruct (Nat.le_gt_cases (length u) (length l)) as [Hle|Hgt]; [lia|].
      destruct (pulls_le pull _ _ _ Hl _ _ H4) as (m & -> & Hm); [lia|]. inversion Hm; subst; [rewrite app_nil_r in Hgt; lia|congruence].
Qed.
Print Assumptions C58_returns.
(** The closure is called again on an item that was pushed back: it is not true that it is called once for
    every item.  Here it counts its calls. *)
Definition counting (n : nat) (x : nat * N) : res (N * nat) := Ok (snd x, S n).
Theorem C58_called_once_refuted : exists e1 e2 g1 g2, let l := numbered [105; 102; 32]%N in
  gnext pull_list counting demo_tok 100 (gtokenize l 0) = Ok (Some e1, g1) /\ gnext pull_list counting demo_tok 100 g1 = Ok (Some e2, g2) /\
  gi_src g2 = [] /\ gi_queue g2 = [] /\ gi_map g2 = 4 /\ length l = 3.
Proof. eexists _, _, _, _. cbv zeta. split; [vm_compute; reflexivity|]. split; [vm_compute; reflexivity|]. repeat split. Qed.
Print Assumptions C58_called_once_refuted.
Example C58_example : tok_ok demo_tok /\ exists e g', gnext pull_list counting demo_tok 100 (gtokenize (numbered demo_text) 0) = Ok (Some e, g') /\
  gi_queue g' = [(2, 32%N)] /\ gi_map g' = 3.
Proof. split; [apply demo_tok_ok|]. eexists _, _. split; [vm_compute; reflexivity|split; reflexivity]. Qed.

(** on a list, with a closure without effects, this is the iterator of TokModel.v *)
Theorem C58_list : forall E T (t : tokenizer E T) (f : T -> N), tok_ok t -> (forall p, ~ tok_accepts t [] p) ->
  forall l fuel, length l < fuel -> exists es g', tok_collect fuel t f (tokenize_with l) = Ok es /\ delivers (gnext pull_list (pure_map f) t fuel) (gtokenize l tt) es g'.
Proof.
  intros E T t f Ht Hn l fuel Hf.
  destruct (tokens_delivered pull_list f t Ht Hn fuel (length l) l (gtokenize l tt) (le_n _)) as (toks & es & g' & H1 & H2 & H3); auto.
  { exists l. split; auto. apply list_ends. }
  destruct (tok_collect_terminates t f Ht (tokenize_with l) fuel Hn Hf) as (es' & toks' & A1 & A2 & A3 & _).
  exists es, g'. split; auto. rewrite A1. f_equal. rewrite <- (munch_det _ _ (tok_accepts_det t) _ _ H1 _ A2) in A3.
  clear - H3 A3. revert es' A3. induction H3 as [|e x es toks (m & Hm & He) _ IH]; intros es' A3; inversion A3 as [|e' x' es1 toks1 (m' & Hm' & He')]; subst; auto.
  rewrite Hm in Hm'. injection Hm' as <-. f_equal. auto.
Qed.
Print Assumptions C58_list.

(** ** C59: text.tokenize_with(tokenizer, f).parse(parser) *)
(** For any patterns that do not match the empty text, any grammar and any iterator that delivers the text
    and ends for good: the result is that of [parse] on the tokens of maximal munch.  [fuel1] bounds
    single scans of the tokenizer. *)
Theorem C59_pipeline : forall K T S P PErr (parse : P -> hir + PErr) env fuel0 (patterns : list (P * (list N -> list T -> K))) hirs t tws
  V Err (nix : V -> nat) (tix : K -> nat) e (s : syntax V K Err) Pr ws (pull : S -> res (option T * S)) f,
  parses_wf parse -> env_ok env -> env_honest env -> parsed parse patterns hirs -> TokModel.build P PErr parse env fuel0 patterns = BOk (t, tws) ->
  (forall h, In h hirs -> ~ matches (actual h) []) ->
  api_syntax nix tix s -> makes e s Pr ws ->
  forall src text src', delivers pull src text src' -> over pull src' -> forall fuel1, length text < fuel1 ->
  exists toks ks, munch (first_of (length hirs) (actual_lang hirs)) f text toks /\
    Forall2 (fun k x => exists p m, nth_error patterns (fst x) = Some (p, m) /\ k = m (map f (snd x)) (snd x)) ks toks /\
    forall fuel, (do r <- parse_pull tix (gnext pull (pure_map f) t fuel1) Pr fuel (gtokenize src tt); Ok (fst r)) = ParseModel.parse tix Pr fuel ks.
Proof.
  intros K T S P PErr parse env fuel0 ps hirs t tws V Err nix tix e s Pr ws pull f W O H Hp Hb Hnn Ha Hmk src text src' Hd Ho fuel1 Hf.
  destruct (inv parse W env fuel0 _ _ t tws O Hp Hb) as (_ & Hw & B & _ & Ht).
  assert (Hacc : forall w p, tok_accepts t w p <-> first_of (length hirs) (actual_lang hirs) w p).
  { intros w p. rewrite (bt_accept _ _ _ _ B H). apply first_of_ext. intros. apply actual_pat. auto. }
  destruct (tokens_delivered pull f t Ht) with (fuel := fuel1) (n := length text) (w := text) (g := gtokenize (T := T) src tt) as (toks & es & g' & A1 & A2 & A3); auto.
  { intros p Hq. apply Hacc in Hq as (_ & (h & Hh & Hm) & _). eapply Hnn; [eapply nth_error_In; eauto|auto]. }
  { exists text. split; auto. exists src'. auto. }
  exists toks, es. split; [eapply munch_ext; eauto|]. split.
  - clear -A3 B. induction A3 as [|k x l l' (m & Hm & Hx) Hl IH]; constructor; auto.
    rewrite (bt_makers _ _ _ _ B), nth_error_map in Hm. destruct (nth_error ps (fst x)) as [[p m']|] eqn:Ei; simpl in Hm; inversion Hm; subst m'. eauto.
  - eapply C57_finite; eauto.
Qed.
Print Assumptions C59_pipeline.

(** so that text is read correctly, if there are no warnings, error rules or useless symbols: the value of the
    one derivation tree of its tokens, or an error if there is none *)
Theorem C59_text_to_value : forall K T S P PErr (parse : P -> hir + PErr) env fuel0 (patterns : list (P * (list N -> list T -> K))) hirs t tws
  V Err (nix : V -> nat) (tix : K -> nat) e (s : syntax V K Err) Pr (pull : S -> res (option T * S)) f,
  parses_wf parse -> env_ok env -> env_honest env -> parsed parse patterns hirs -> TokModel.build P PErr parse env fuel0 patterns = BOk (t, tws) ->
  (forall h, In h hirs -> ~ matches (actual h) []) ->
  api_syntax nix tix s -> makes e s Pr [] -> error_free s -> productive (gram s) -> (forall ks, total_on tix s ks) ->
  forall src text src', delivers pull src text src' -> over pull src' ->
  exists toks ks, munch (first_of (length hirs) (actual_lang hirs)) f text toks /\
    Forall2 (fun k x => exists p m, nth_error patterns (fst x) = Some (p, m) /\ k = m (map f (snd x)) (snd x)) ks toks /\
    exists F, forall fuel, F <= fuel ->
      (exists tr v src'', proper_tree tix s ks tr /\ ev (gens s) ks tr = GOk (NonTerminal v) /\ parse_pull tix (gnext pull (pure_map f) t fuel) Pr fuel (gtokenize src tt) = Ok (ROk v, src'')) \/
      (~ derivable tix s ks /\ exists src'', parse_pull tix (gnext pull (pure_map f) t fuel) Pr fuel (gtokenize src tt) = Ok (RNotFound, src'')).
Proof.
  intros K T S P PErr parse env fuel0 ps hirs t tws V Err nix tix e s Pr pull f W O H Hp Hb Hnn Ha Hmk Hef Hpr Htot src text src' Hd Ho.
  destruct (C59_pipeline _ _ _ _ _ parse env fuel0 ps hirs t tws _ _ nix tix e s Pr [] pull f W O H Hp Hb Hnn Ha Hmk src text src' Hd Ho (Datatypes.S (length text)) (Nat.lt_succ_diag_r _)) as (toks & ks & A1 & A2 & _).
  exists toks, ks. split; auto. split; auto.
  assert (Hpipe : forall fuel1, length text < fuel1 -> forall fuel, (do r <- parse_pull tix (gnext pull (pure_map f) t fuel1) Pr fuel (gtokenize src tt); Ok (fst r)) = ParseModel.parse tix Pr fuel ks).
  { intros fuel1 H1. destruct (C59_pipeline _ _ _ _ _ parse env fuel0 ps hirs t tws _ _ nix tix e s Pr [] pull f W O H Hp Hb Hnn Ha Hmk src text src' Hd Ho fuel1 H1) as (toks' & ks' & B1 & B2 & B3).
    assert (toks' = toks) as ->. { eapply munch_det; eauto. intros w p q (_ & X1 & X2) (_ & Y1 & Y2). destruct (Nat.lt_trichotomy p q) as [Hl|[Hl|Hl]]; auto; exfalso; [eapply Y2|eapply X2]; eauto. }
    assert (ks' = ks) as ->; auto. clear - A2 B2. revert ks' B2. induction A2 as [|k x ks toks (p & m & Hm & He) _ IH]; intros ks' B2; inversion B2 as [|k' x' ks1 toks1 (p' & m' & Hm' & He')]; subst; auto.
    rewrite Hm in Hm'. injection Hm' as <- <-. f_equal. auto. }
  assert (Hmono : forall o k k', ParseModel.parse tix Pr k ks = Ok o -> k <= k' -> ParseModel.parse tix Pr k' ks = Ok o).
  { intros o k k' H1 Hle. unfold ParseModel.parse, parse_full in *. destruct (loop (parse_step tix Pr) k (ps_init Pr ks)) as [x| |] eqn:E0; try discriminate.
    rewrite (loop_mono _ _ k' _ _ E0); auto. discriminate. }
  assert (Hfin : forall o k, ParseModel.parse tix Pr k ks = Ok o -> forall fuel, max k (Datatypes.S (length text)) <= fuel ->
    exists src'', parse_pull tix (gnext pull (pure_map f) t fuel) Pr fuel (gtokenize src tt) = Ok (o, src'')).
  { intros o k Hk fuel Hle. pose proof (Hpipe fuel ltac:(lia) fuel) as Hq. rewrite (Hmono _ _ fuel Hk) in Hq by lia.
    destruct (parse_pull tix (gnext pull (pure_map f) t fuel) Pr fuel (gtokenize src tt)) as [[o' x]| |]; try discriminate. simpl in Hq. injection Hq as ->. eauto. }
  destruct (C23_decides_partial _ _ _ nix tix e s Pr ks Ha Hmk Hef Hpr (Htot ks)) as [[Hder [v [k Hk]]]|[Hnder [k Hk]]].
  - exists (max k (Datatypes.S (length text))). intros fuel Hle. left.
    destruct (C21_sound _ _ _ nix tix e s Pr [] ks v Ha Hmk Hef (ex_intro _ k Hk)) as (_ & tr & Htr & Hev). destruct (Hfin _ _ Hk fuel Hle) as [src'' Hx]. exists tr, v, src''. auto.
  - exists (max k (Datatypes.S (length text))). intros fuel Hle. right. split; auto. apply (Hfin _ _ Hk fuel Hle).
Qed.
Print Assumptions C59_text_to_value.

(** [0-9]+ and \+, and the grammar of sums *)
Definition sum_hirs : list hir := [h_num; HLitU 43].
Definition sum_patterns : list (nat * (list N -> list (nat * N) -> tk)) := [(0, fun w _ => (kId, length w)); (1, fun _ _ => (kPlus, 0))].
Definition sum_built := TokModel.build nat unit (parse_in sum_hirs) plain_env 100 sum_patterns.
Definition sum_tok := match sum_built with BOk (t, _) => t | _ => mk_tok [] 0 [] [] end.
Example C59_example : parses_wf (parse_in sum_hirs) /\ env_ok plain_env /\ env_honest plain_env /\ parsed (parse_in sum_hirs) sum_patterns sum_hirs /\
  (exists ws, sum_built = BOk (sum_tok, ws)) /\ (forall h, In h sum_hirs -> ~ matches (actual h) []) /\
  api_syntax nix0 tkix expr /\ makes env0 expr P_expr [] /\ error_free expr /\ productive (gram expr) /\ (forall ks, total_on tkix expr ks) /\
  (forall text : list (nat * N), exists src', delivers pull_list text text src' /\ over pull_list src') /\
  (exists v src', parse_pull tkix (gnext pull_list (pure_map snd) sum_tok 100) P_expr 100 (gtokenize (numbered [49; 50; 43; 51]%N) tt) = Ok (ROk v, src')).
Proof.
  assert (W : Forall wf_hir sum_hirs). { repeat constructor; cbn; try discriminate; auto; lia. }
  split; [intros p h; apply (parse_in_wf _ W)|]. split; [apply plain_ok|]. split; [apply plain_ok|]. split; [repeat constructor|]. split; [eexists; vm_compute; reflexivity|]. split.
  { assert (S0 : Forall supported sum_hirs) by (repeat constructor; apply first_err_none; reflexivity).
    intros h Hh Hm. rewrite Forall_forall in W, S0. pose proof (proj2 (C56_compared h (W _ Hh) (S0 _ Hh))) as Hx.
    assert (He : exact_hir h = true) by (destruct Hh as [<-|[<-|[]]]; reflexivity). specialize (Hx He _ Hm). clear - Hh Hx.
    destruct Hh as [<-|[<-|[]]]; [|discriminate Hx]. cbn in Hx. destruct Hx as (n & Hx). destruct n; [cbn in Hx; lia|]. destruct Hx as (Hn & a & b & Ha & (c & -> & _) & _). discriminate. }
  split; [apply expr_api|]. split; [apply expr_makes|]. split; [apply expr_free|]. split; [apply expr_productive|]. split; [apply expr_total|].
  split; [intros text; apply (list_ends text)|]. eexists _, _. vm_compute. reflexivity.
Qed.

(** ** C48, with the iterators as lazy as they are *)
Section Flat.
  Context {F S : Type} (pull : S -> res (option (res (option (token F))) * S)).
  Lemma flat_first es : forall g g1 ts, pulls pull g es g1 -> flatten es = Ok ts -> forall fuel, length es < fuel ->
    match ts with
    | [] => forall s2, pull g1 = Ok (None, s2) -> pull_flat pull fuel g = Ok (None, s2)
    | x :: ts' => exists g2 es', pull_flat pull fuel g = Ok (Some x, g2) /\ pulls pull g2 es' g1 /\ length es' < length es /\ flatten es' = Ok ts'
    end.
  Proof.
    induction es as [|e es IH]; intros g g1 ts Hp Hf fuel Hl; inversion Hp as [|g0 e0 g2 es0 g3 He Hr]; subst; (destruct fuel as [|fuel]; [simpl in Hl; lia|]).
    - injection Hf as <-. intros s2 H2. unfold pull_flat. cbn [loop]. unfold flat_step. rewrite H2. reflexivity.
    - cbn [flatten] in Hf. destruct e as [o| |]; try discriminate. cbn [bind] in Hf. destruct (flatten es) as [ts'| |] eqn:Ef; try discriminate. cbn [bind] in Hf. injection Hf as <-.
      unfold pull_flat. cbn [loop]. unfold flat_step at 1. unfold flat_step at 2. rewrite He. destruct o as [x|].
      + exists g2, es. repeat split; auto.
      + specialize (IH _ _ _ Hr eq_refl fuel). simpl in Hl. destruct ts' as [|x ts']; [apply IH; lia|]. destruct IH as (g4 & es' & H1 & H2 & H3 & H4); [lia|].
        exists g4, es'. repeat split; auto. simpl. lia.
  Qed.
  Lemma flat_delivers ts : forall es g g', delivers pull g es g' -> flatten es = Ok ts -> forall fuel, length es < fuel -> delivers (pull_flat pull fuel) g ts g'.
  Proof.
    induction ts as [|x ts IH]; intros es g g' (g1 & Hp & Hn) Hf fuel Hl; pose proof (flat_first es g g1 _ Hp Hf fuel Hl) as H.
    - exists g. split; [constructor|]. apply H. exact Hn.
    - destruct H as (g2 & es' & H1 & H2 & H3 & H4). destruct (IH es' g2 g' (ex_intro _ g1 (conj H2 Hn)) H4 fuel) as (g3 & H5 & H6); [lia|].
      exists g3. split; auto. econstructor; eauto.
  Qed.
End Flat.

(** A panic of a maker, or of the token iterator, comes through [flatten] when, and only when, the tokens before it have been taken. *)
Theorem C48_flatten_panics : forall F S (pull : S -> res (option (res (option (token F))) * S)) es g g1 ts,
  pulls pull g es g1 -> flatten es = Ok ts -> pull g1 = Panic \/ (exists g2, pull g1 = Ok (Some Panic, g2)) ->
  forall fuel, length es < fuel -> exists g', pulls (pull_flat pull fuel) g ts g' /\ pull_flat pull fuel g' = Panic.
Proof.
  intros F S pull es g g1 ts Hp Hf Hx fuel Hl. remember (length es) as n eqn:En. assert (Hn : length es <= n) by lia. clear En. revert ts es g Hp Hf Hl Hn.
  induction n as [n IH] using (well_founded_induction lt_wf). intros ts es g Hp Hf Hl Hn. destruct ts as [|x ts].
  - exists g. split; [constructor|]. assert (Hl' : length es < fuel) by lia. clear IH Hn Hl n. revert g fuel Hp Hf Hl'.
    induction es as [|e es IHe]; intros g fuel Hp Hf Hl; inversion Hp as [|g0 e0 g2 es0 g3 He Hr]; subst; (destruct fuel as [|fuel]; [simpl in Hl; lia|]); unfold pull_flat; cbn [loop]; unfold flat_step at 1.
    + destruct Hx as [->|[g2 ->]]; reflexivity.
    + cbn [flatten] in Hf. destruct e as [o| |]; try discriminate. cbn [bind] in Hf. destruct (flatten es) as [ts'| |] eqn:Ef; try discriminate. cbn [bind] in Hf. destruct o as [y|]; [discriminate|].
      rewrite He. apply IHe; auto. simpl in Hl. lia.
  - pose proof (flat_first pull es g g1 _ Hp Hf fuel ltac:(lia)) as (g2 & es' & H1 & H2 & H3 & H4).
    destruct (IH (length es') ltac:(lia) ts es' g2 H2 H4 ltac:(lia) (le_n _)) as (g' & A1 & A2). exists g'. split; auto. econstructor; eauto.
Qed.
Print Assumptions C48_flatten_panics.
Example C48_flatten_panics_example : forall x : token Z, let l := [Ok None; Ok (Some x); Ok None; Panic; Ok None] in
  pulls pull_list l (firstn 3 l) (skipn 3 l) /\ flatten (firstn 3 l) = Ok [x] /\ exists g2, pull_list (skipn 3 l) = Ok (Some Panic, g2).
Proof. intros x l. split; [repeat econstructor|]. split; [reflexivity|]. eexists. reflexivity. Qed.

(** for every line the program prints the value or the error, as in C48_line *)
Theorem C48_line_lazy : forall F PErr Err (fo : floats F) (parse : String.string -> hir + PErr) env fuel t tws e P ws,
  parses_wf parse -> parsed parse (calc_patterns fo) calc_hirs -> env_ok env -> build_tokenizer fo parse env fuel = BOk (t, tws) ->
  makes e (@calc_syntax F fo Err) P ws -> parses_numbers fo ->
  forall line, exists ts, lexes fo line ts /\ exists K, forall fuel', K <= fuel' ->
    (exists n, is_sum fo ts n /\ calc_line_lazy t P fuel' line = Ok (PNumber n)) \/ ((forall n, ~ is_sum fo ts n) /\ calc_line_lazy t P fuel' line = Ok (PError RNotFound)).
Proof.
  intros F PErr Err fo parse env fuel t tws e P ws W Hp He Hb Hm Hn line.
  destruct (C48_line F PErr Err fo parse env fuel t tws e P ws W Hp He Hb Hm Hn line) as (ts & Hl & K & HK). exists ts. split; auto.
  exists (Datatypes.S (max K (length line))). intros k Hk. specialize (HK k ltac:(lia)).
  assert (E : calc_line_lazy t P k line = calc_line t P k line); [|rewrite E; exact HK].
  destruct (inv parse W env fuel _ _ t tws He Hp Hb) as (_ & _ & _ & _ & Ht).
  assert (Hne : forall p, ~ tok_accepts t [] p). { intros p Hq. apply (calc_accepts fo parse W Hp env fuel t tws He Hb) in Hq as (_ & Hq & _). exact (lexeme_ne _ _ Hq eq_refl). }
  destruct (C58_list _ _ t (fun c => c) Ht Hne line k ltac:(lia)) as (es & g' & H1 & H2).
  destruct (C47_tokens F PErr fo parse env fuel t tws W Hp He Hb Hn line k ltac:(lia)) as (es' & ts' & A1 & A2 & A3 & A4).
  rewrite H1 in A1. injection A1 as <-.
  assert (Hle : length es <= length line).
  { destruct (tok_collect_terminates t (fun c => c) Ht (tokenize_with line) k) as (es2 & toks & B1 & _ & _ & B4 & _); [exact Hne|change (length line < k); lia|]. rewrite H1 in B1. injection B1 as <-. exact B4. }
  pose proof (C57_finite _ _ _ _ value_index token_index e _ P ws (pull_tokens t k) (calc_api fo) Hm (gtokenize line tt) ts' g') as G.
  specialize (G (flat_delivers _ ts' es _ g' H2 A2 k ltac:(lia)) k).
  unfold calc_line_lazy, calc_line. rewrite H1. cbn [bind]. rewrite A2. cbn [bind]. rewrite <- G.
  destruct (parse_pull token_index (pull_tokens t k) P k (gtokenize line tt)) as [[o s']| |]; reflexivity.
Qed.
Print Assumptions C48_line_lazy.

Theorem C48_loop_lazy : forall F PErr Err (fo : floats F) (parse : String.string -> hir + PErr) env fuel t tws e P ws,
  parses_wf parse -> parsed parse (calc_patterns fo) calc_hirs -> env_ok env -> build_tokenizer fo parse env fuel = BOk (t, tws) ->
  makes e (@calc_syntax F fo Err) P ws -> parses_numbers fo ->
  forall n lines, exists K, forall fuel', K <= fuel' ->
    exists outs, calc_loop_lazy t P fuel' n lines = Ok outs /\ length outs = n /\
      forall i o, nth_error outs i = Some o -> exists ts, lexes fo (nth i lines []) ts /\
        ((exists v, is_sum fo ts v /\ o = PNumber v) \/ ((forall v, ~ is_sum fo ts v) /\ o = PError RNotFound)).
Proof.
  intros F PErr Err fo parse env fuel t tws e P ws W Hp He Hb Hm Hn n. induction n as [|n IH]; intros lines.
  - exists 0. intros k _. exists []. split; auto. split; auto. intros [|i] o Hi; discriminate.
  - destruct (IH (tl lines)) as [K1 H1]. destruct (C48_line_lazy F PErr Err fo parse env fuel t tws e P ws W Hp He Hb Hm Hn (hd [] lines)) as (ts & Hl & K2 & H2).
    exists (max K1 K2). intros k Hk. destruct (H1 k) as (outs & A1 & A2 & A3); [lia|].
    assert (G : exists o, calc_line_lazy t P k (hd [] lines) = Ok o /\ ((exists v, is_sum fo ts v /\ o = PNumber v) \/ ((forall v, ~ is_sum fo ts v) /\ o = PError RNotFound))).
    { destruct (H2 k) as [(v & B1 & B2)|[B1 B2]]; [lia|exists (PNumber v); eauto|exists (PError RNotFound); auto]. }
    destruct G as (o & G1 & G2). exists (o :: outs). cbn [calc_loop_lazy]. rewrite G1. cbn [bind]. rewrite A1. cbn [bind]. split; auto. split; [simpl; auto|].
    intros [|i] o' Hi; cbn [nth_error] in Hi.
    + injection Hi as <-. exists ts. split; auto. destruct lines; exact Hl.
    + destruct (A3 i o' Hi) as (ts' & C1 & C2). exists ts'. split; auto. destruct lines; [destruct i; exact C1|exact C1].
Qed.
Print Assumptions C48_loop_lazy.
Example C48_lazy_example : calc_loop_lazy the_tokenizer the_parser 1000 4 (map text ["1 - 2*(-3)"; "sqrt 16+7"; "2 3"]%string) = Ok [PNumber 7%Z; PNumber 11%Z; PError RNotFound; PError RNotFound].
Proof. vm_compute. reflexivity. Qed.
