(** * C67: the token iterator with any implementation of the trait Tokenizer
    [I] is the implementation, [W] the type of all that the underlying iterator ([pull]), the closure ([mapf]) and the token makers can
    read and write.  [anext pull mapf I fuel (q, w)] is a call of [next] with the items [q] pushed back and the state [w]. *)
From Coq Require Import List Arith Lia NArith.
From Verif Require Import Lib Hir NfaPath NfaSem NfaModel NfaProofs NfaExact TokNfa DfaModel DfaEdges DfaProofs DfaTop MinModel MinProofs MinTop TokModel TokSpec TokProofs TokTop TokMore TokExamples PropTok PullModel PullSpec PullProofs PropPull AnyTokModel AnyTokSpec AnyTokProofs.
Import ListNotations.

(** The call looks at the items [l], pushed back ones first; their characters are [cs].  It stops at the first item with which
    there is no way on, or at the end of the iterator.  The token is made of the longest prefix of these items that is accepted, when all
    of them have been looked at; the others are pushed back.  If no prefix is accepted the result is [None] and the items are lost. *)
Theorem C67_any_tokenizer : forall E T W (pull : W -> res (option T) * W) (mapf : T -> W -> res N * W) (I : implementation E T W) fuel q w o q' w',
  anext pull mapf I fuel (q, w) = (Ok o, (q', w')) ->
  exists l cs q1 w1 w2, looks pull mapf q w l cs q1 w1 /\
    ((exists cs0 c, cs = cs0 ++ [c] /\ stuck I cs0 c /\ w2 = w1) \/ ((exists n, walk I cs n) /\ q1 = [] /\ pull w1 = (Ok None, w2))) /\
    match o with
    | Some e => exists k p, longest_in I cs k p /\ im_make I p (firstn k cs) (firstn k l) w2 = (Ok e, w') /\ q' = skipn k l ++ q1
    | None => none_in I cs /\ q' = q1 /\ w' = w2
    end.
Proof. intros E T W pull mapf I fuel q w o q' w' H. pose proof (anext_ok pull mapf I fuel q w) as G. rewrite H in G. exact G. Qed.
Print Assumptions C67_any_tokenizer.

(** If no method of the tokenizer panics, the call panics only if the iterator, the closure or the maker of the longest match does. *)
Theorem C67_panics : forall E T W (pull : W -> res (option T) * W) (mapf : T -> W -> res N * W) (I : implementation E T W) fuel q w q' w',
  safe I -> anext pull mapf I fuel (q, w) = (Panic, (q', w')) ->
  exists l cs q1 w1, looks pull mapf q w l cs q1 w1 /\
    ((exists n, walk I cs n) /\ q1 = [] /\ pull w1 = (Panic, w') \/
     (exists n, walk I cs n) /\ (exists x w2, takes pull q1 w1 x q' w2 /\ mapf x w2 = (Panic, w')) \/
     exists w2 k p, longest_in I cs k p /\ im_make I p (firstn k cs) (firstn k l) w2 = (Panic, w') /\ q' = skipn k l ++ q1).
Proof.
  intros E T W pull mapf I fuel q w q' w' [[b Hb] Hs] H. pose proof (anext_ok pull mapf I fuel q w) as G. rewrite H in G.
  destruct G as [(_ & _ & [G|(b' & Hb' & G)])|[(l & cs & q1 & w1 & n & Hl & Hw & G)|(l & cs & q1 & w1 & w2 & k & p & Hl & _ & Hk & G & Hq)]].
  - congruence.
  - destruct (Hs [] b') as [[z Hz] _]; [constructor; auto|]. congruence.
  - exists l, cs, q1, w1. split; auto. destruct G as [(A & _ & r' & B & [[-> _]|[_ C]])|[(x & w2 & A & r' & B & [[-> _]|[_ C]])|[(x & w2 & c & _ & _ & r' & B & C)|(x & w2 & c & n' & _ & _ & A & r' & B & C)]]]; try discriminate; eauto 10.
    + destruct (Hs _ _ Hw) as [_ Hc]. destruct (Hc c) as [z Hz]. rewrite Hz in B. subst. destruct C as [[? _]|[? _]]; discriminate.
    + assert (Hw' : walk I (cs ++ [c]) n') by (econstructor; eauto). destruct (Hs _ _ Hw') as [[z Hz] _]. rewrite Hz in B. subst. destruct C as [[? _]|[? _]]; discriminate.
  - exists l, cs, q1, w1. split; auto. right. right. eauto 10.
Qed.
Print Assumptions C67_panics.

(** It returns or panics within a number of turns bounded by the items pushed back and a bound on those still to come. *)
Theorem C67_returns : forall E T W (pull : W -> res (option T) * W) (mapf : T -> W -> res N * W) (I : implementation E T W) (mu : W -> nat),
  safe I -> (forall w, fst (pull w) <> OutOfFuel) -> (forall x w, fst (mapf x w) <> OutOfFuel) -> (forall p cs xs w, fst (im_make I p cs xs w) <> OutOfFuel) ->
  (forall w x w', pull w = (Ok (Some x), w') -> mu w' < mu w) -> (forall x w, mu (snd (mapf x w)) <= mu w) ->
  forall fuel q w, length q + mu w < fuel -> fst (anext pull mapf I fuel (q, w)) <> OutOfFuel.
Proof.
  intros E T W pull mapf I mu [[b Hb] Hs] H1 H2 H3 H4 H5 fuel q w Hf H. pose proof (anext_ok pull mapf I fuel q w) as G.
  destruct (anext pull mapf I fuel (q, w)) as [r [q' w']]. simpl in H. subst r.
  assert (Hmu : forall q w l cs q1 w1, looks pull mapf q w l cs q1 w1 -> length l + length q1 + mu w1 <= length q + mu w).
  { clear - H4 H5. induction 1 as [q w|x q w c w1 l cs q' w' Hc H IH|x w w1 c w2 l cs q' w' Hp Hc H IH]; simpl; auto.
    - specialize (H5 x w). rewrite Hc in H5. simpl in H5. lia.
    - specialize (H4 _ _ _ Hp). specialize (H5 x w1). rewrite Hc in H5. simpl in *. lia. }
  destruct G as [G|[(b' & Hb' & G)|[(q2 & w2 & l & cs & q1 & w1 & n & Hl & Hw & G)|[(l & cs & q1 & w1 & w2 & k & p & Hl & _ & Hk & G)|(l & cs & q1 & w1 & Hl & G)]]]].
  - congruence.
  - destruct (Hs [] b') as [[z Hz] _]; [constructor; auto|]. congruence.
  - destruct G as [(A & _ & r' & B & [[_ C]|[-> _]])|[(x & w3 & A & r' & B & [[_ C]|[-> _]])|[(x & w3 & c & _ & _ & r' & B & C)|(x & w3 & c & n' & _ & _ & A & r' & B & C)]]]; try discriminate.
    + apply (H1 w1). rewrite B. reflexivity.
    + apply (H2 x w3). rewrite B. reflexivity.
    + destruct (Hs _ _ Hw) as [_ Hc]. destruct (Hc c) as [z Hz]. rewrite Hz in B. subst. destruct C as [[? _]|[? _]]; discriminate.
    + assert (Hw' : walk I (cs ++ [c]) n') by (econstructor; eauto). destruct (Hs _ _ Hw') as [[z Hz] _]. rewrite Hz in B. subst. destruct C as [[? _]|[? _]]; discriminate.
  - apply (H3 p (firstn k cs) (firstn k l) w2). rewrite G. reflexivity.
  - specialize (Hmu _ _ _ _ _ _ Hl). lia.
Qed.
Print Assumptions C67_returns.

(** [DFATokenizer] is one implementation: this is the iterator of C58.  It is safe, and recognises what C01-C19 say. *)
Theorem C67_dfa_tokenizer : forall E T S M (pull : S -> res (option T * S)) (mapf : M -> T -> res (N * M)) (t : tokenizer E T),
  (forall fuel src q m, gnext pull mapf t fuel (mk_giter src q m) =
    match anext (pull_fst pull) (map_snd mapf) (dfa_impl t) fuel (q, (src, m)) with
    | (Ok o, (q', (src', m'))) => Ok (o, mk_giter src' q' m')
    | (Panic, _) => Panic
    | (OutOfFuel, _) => OutOfFuel
    end) /\
  (tok_ok t -> safe (dfa_impl (W := S * M) t) /\ forall cs p, im_accepts (dfa_impl (W := S * M) t) cs p <-> tok_accepts t cs p).
Proof.
  intros E T S M pull mapf t. split; [apply dfa_next_same|]. intros Ht.
  assert (Hw : forall cs n, walk (dfa_impl (W := S * M) t) cs n <-> tok_run t cs = Some n).
  { intros cs. induction cs as [|c cs IH] using rev_ind; intros n; split; intros H.
    - inversion H as [b Hb|cs' m c' n' _ _ Ec]; [|destruct cs'; discriminate]. cbn [dfa_impl im_begin] in *. subst. injection Hb as <-. reflexivity.
    - inversion H; subst. constructor. reflexivity.
    - apply walk_snoc_inv in H as (m & Hm & Hn). apply IH in Hm. rewrite (tok_run_app t _ _ _ Hm). cbn [drun]. unfold dnext.
      cbn [dfa_impl im_next] in Hn. unfold next_node in Hn. destruct (nth_error (tk_goto t) m) as [nd|]; [|discriminate]. cbn [of_opt bind] in Hn. inversion Hn as [Hl]. rewrite Hl. auto.
    - assert (exists m, tok_run t cs = Some m) as [m Hm].
      { destruct (tok_run t cs) as [m|] eqn:E0; [eauto|]. exfalso. apply (run_prefix t cs [c]); congruence. }
      apply (walk_snoc _ cs m c n); [apply IH; auto|]. rewrite (tok_run_app t _ _ _ Hm) in H. cbn [drun] in H. unfold dnext in H.
      cbn [dfa_impl im_next]. unfold next_node. destruct (nth_error (tk_goto t) m) as [nd|]; [|discriminate]. cbn [of_opt bind]. destruct (lookup c nd); congruence. }
  assert (Hlt : forall cs n, tok_run t cs = Some n -> n < length (tk_goto t)).
  { intros cs. induction cs as [|c cs IH] using rev_ind; intros n H.
    - inversion H; subst. apply Ht.
    - assert (exists m, tok_run t cs = Some m) as [m Hm].
      { destruct (tok_run t cs) as [m|] eqn:E0; [eauto|]. exfalso. apply (run_prefix t cs [c]); congruence. }
      rewrite (tok_run_app t _ _ _ Hm) in H. cbn [drun] in H. unfold dnext in H. destruct (nth_error (tk_goto t) m) as [nd|] eqn:End; [|discriminate].
      destruct (lookup c nd) as [n'|] eqn:El; [|discriminate]. inversion H; subst. eapply to_target; eauto. }
  split.
  - split; [simpl; eauto|]. intros cs n Hn. split; [simpl; eauto|]. intros c. apply Hw, Hlt in Hn. cbn [dfa_impl im_next]. unfold next_node.
    destruct (nth_error (tk_goto t) n) as [nd|] eqn:End; [simpl; eauto|]. apply nth_error_None in End. lia.
  - intros cs p. unfold im_accepts, tok_accepts, accept_index. split; intros (n & A & B); exists n; (split; [apply Hw; auto|]).
    + cbn [dfa_impl im_accept] in B. unfold accept_index in B. congruence.
    + cbn [dfa_impl im_accept]. unfold accept_index. congruence.
Qed.
Print Assumptions C67_dfa_tokenizer.

(** On a text, with a closure without effects: maximal munch with the language of the implementation.  The makers are called once for every
    token, in the order of the text, each with its text and items; here they may have effects on a state [x] of their own. *)
Theorem C67_munch : forall E T X (f : T -> N) (I : implementation E T (list T * X)) (mk : nat -> list N -> list T -> X -> res E * X),
  safe I -> (forall p, ~ im_accepts I [] p) ->
  (forall p cs xs l x, im_make I p cs xs (l, x) = (fst (mk p cs xs x), (l, snd (mk p cs xs x)))) -> (forall p cs xs x, exists e, fst (mk p cs xs x) = Ok e) ->
  forall text x fuel, length text < fuel ->
  exists toks es x' q' l', munch (im_accepts I) f text toks /\ made f mk x toks es x' /\
    delivers (as_pull (anext list_fst (pure_chars f) I fuel)) ([], (text, x)) es (q', (l', x')).
Proof.
  intros E T X f I mk Hsafe Hnil Hmk Hret text x fuel Hf.
  assert (G : forall n q l x, length (q ++ l) <= n -> length (q ++ l) < fuel -> exists toks es x' q' l', munch (im_accepts I) f (q ++ l) toks /\ made f mk x toks es x' /\
    delivers (as_pull (anext list_fst (pure_chars f) I fuel)) (q, (l, x)) es (q', (l', x'))).
  { clear text x Hf. induction n as [|n IH]; intros q l x Hn Hf; destruct (anext_pure f I mk Hmk Hsafe Hret fuel q l x Hf) as (o & q' & l' & x' & Hc & Ho); destruct o as [e|].
    - destruct Ho as (k & p & (L1 & L2 & _) & _). exfalso. apply (Hnil p). replace k with 0 in L2 by lia. exact L2.
    - destruct Ho as [Ho ->]. exists [], [], x, q', l'. split; [constructor; auto|]. split; [constructor|]. exists (q, (l, x)). split; [constructor|]. unfold as_pull. rewrite Hc. reflexivity.
    - destruct Ho as (k & p & (L1 & L2 & L3) & Hq & Hm).
      assert (Hk : k <> 0) by (intros ->; apply (Hnil p); exact L2).
      assert (Hlen : length (q' ++ l') = length (q ++ l) - k) by (rewrite Hq, skipn_length; reflexivity).
      destruct (IH q' l' x') as (toks & es & x2 & q2 & l2 & A & B & (s1 & C1 & C2)); [lia|lia|].
      exists ((p, firstn k (q ++ l)) :: toks), (e :: es), x2, q2, l2. split; [|split].
      + constructor; [split; auto|]. rewrite <- Hq. auto.
      + econstructor; eauto.
      + exists s1. split; auto. econstructor; eauto. unfold as_pull. rewrite Hc. reflexivity.
    - destruct Ho as [Ho ->]. exists [], [], x, q', l'. split; [constructor; auto|]. split; [constructor|]. exists (q, (l, x)). split; [constructor|]. unfold as_pull. rewrite Hc. reflexivity. }
  apply (G (length text) [] text x); auto.
Qed.
Print Assumptions C67_munch.

(** ** The example: a tokenizer written by hand that knows nested brackets, which no pattern can express.  The node counts the open
    brackets: 0 at the beginning, 1 at the end of a token, n + 2 with n + 1 brackets open.  A token is a character, or a text in brackets in which
    brackets are balanced.  The maker numbers the tokens: its state is a counter. *)
Definition nested : implementation (nat * list N) N (list N * nat) :=
  mk_impl (Ok 0) (fun n => Ok (if n =? 1 then Some 0 else None))
    (fun n c => Ok (match n with
                    | 0 => Some (if N.eqb c 40 then 2 else 1)
                    | 1 => None
                    | S (S d) => Some (if N.eqb c 40 then S n else if N.eqb c 41 then S d else n)
                    end))
    (fun _ cs _ w => (Ok (snd w, cs), (fst w, S (snd w)))).
Definition nested_mk (p : nat) (cs : list N) (xs : list N) (x : nat) : res (nat * list N) * nat := (Ok (x, cs), S x).
(** every depth is recognised *)
Lemma nested_deep n : im_accepts nested (repeat 40%N (S n) ++ repeat 41%N (S n)) 0.
Proof.
  assert (A : forall n, walk nested (repeat 40%N (S n)) (S (S n))).
  { clear n. induction n as [|n IH].
    - apply (walk_snoc nested [] 0 40%N 2); [constructor|]; reflexivity.
    - replace (repeat 40%N (S (S n))) with (repeat 40%N (S n) ++ [40%N]) by (rewrite <- repeat_cons; reflexivity). eapply walk_snoc; [exact IH|]. reflexivity. }
  assert (B : forall m d, m <= S d -> walk nested (repeat 40%N (S d) ++ repeat 41%N m) (S (S d) - m)).
  { induction m as [|m IH]; intros d Hm.
    - rewrite app_nil_r, Nat.sub_0_r. apply A.
    - replace (repeat 41%N (S m)) with (repeat 41%N m ++ [41%N]) by (rewrite <- repeat_cons; reflexivity). rewrite app_assoc. eapply walk_snoc; [apply IH; lia|].
      cbn [nested im_next]. replace (S (S d) - m) with (S (S (d - m))) by lia. cbn [N.eqb Pos.eqb]. do 2 f_equal. lia. }
  exists 1. split; [|reflexivity]. specialize (B (S n) n (le_n _)). replace (S (S n) - S n) with 1 in B by lia. exact B.
Qed.
(** ((a)b)c((d: two tokens; then nothing matches and the rest is lost *)
Definition nested_text : list N := [40; 40; 97; 41; 98; 41; 99; 40; 40; 100]%N.
Example C67_example : safe nested /\ (forall p, ~ im_accepts nested [] p) /\
  (forall p cs xs l x, im_make nested p cs xs (l, x) = (fst (nested_mk p cs xs x), (l, snd (nested_mk p cs xs x)))) /\ (forall p cs xs x, exists e, fst (nested_mk p cs xs x) = Ok e) /\
  let next := anext list_fst (pure_chars (fun c => c)) nested 100 in
  next ([], (nested_text, 7)) = (Ok (Some (7, [40; 40; 97; 41; 98; 41]%N)), ([99%N], ([40; 40; 100]%N, 8))) /\
  next ([99%N], ([40; 40; 100]%N, 8)) = (Ok (Some (8, [99%N])), ([40%N], ([40; 100]%N, 9))) /\
  next ([40%N], ([40; 100]%N, 9)) = (Ok None, ([], ([], 9))).
Proof.
  split; [|split; [|split; [|split; [|split; [|split]]]]]; try reflexivity.
  - split; [exists 0; reflexivity|]. intros cs n _. split; intros; eexists; reflexivity.
  - intros p (n & Hn & Ha). inversion Hn as [b Hb|cs' m c' n' _ _ Ec]; [|destruct cs'; discriminate]. inversion Hb; subst. discriminate.
  - intros. eexists. reflexivity.
Qed.
(** the panics: of the closure at the second item, after which both are lost; of the maker, after which the items it got are lost and the others are
    pushed back *)
Definition shy (c : N) (w : list N * nat) : res N * (list N * nat) := if N.eqb c 98 then (Panic, (fst w, 66)) else (Ok c, w).
Definition bomb : implementation (nat * list N) N (list N * nat) :=
  mk_impl (im_begin nested) (im_accept nested) (im_next nested) (fun p cs xs w => if N.eqb (hd 0%N cs) 99 then (Panic, w) else im_make nested p cs xs w).
Example C67_example_panics :
  anext list_fst shy nested 100 ([], ([40; 98; 41]%N, 7)) = (Panic, ([], ([41%N], 66))) /\
  anext list_fst (pure_chars (fun c => c)) bomb 100 ([], ([99; 97; 98]%N, 7)) = (Panic, ([97%N], ([98%N], 7))).
Proof. split; reflexivity. Qed.
