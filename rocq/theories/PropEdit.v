(** * Property C89: tokens depend only on what was read for them, and edits of a text have local effects *)
From Coq Require Import List Arith Lia Bool NArith.
From Verif Require Import Lib Hir DfaModel TokModel TokSpec TokProofs TokMore TokTop TokExamples PropTok PropBuild ActualSpec PropActual ReadSpec PropRead LayoutSpec MinModel MinTop MakeSpec PropMakes.
Import ListNotations.

Section Proofs.
  Context {E T : Type} (t : tokenizer E T) (f : T -> N).
  Hypothesis Ht : tok_ok t.
  Variables (b b' : list T).

  (** the same scan over another continuation *)
  Definition moved (sc sc' : scan (T := T)) : Prop :=
    sc_node sc = sc_node sc' /\ sc_pat sc = sc_pat sc' /\ sc_len sc = sc_len sc' /\ sc_i sc = sc_i sc' /\ sc_items sc = sc_items sc' /\ sc_chars sc = sc_chars sc' /\
    ti_queue (sc_src sc) = ti_queue (sc_src sc') /\ exists r, ti_iter (sc_src sc) = r ++ b /\ ti_iter (sc_src sc') = r ++ b'.

  Lemma scan_shrinks fuel : forall sc sc1, loop (scan_step t f) fuel sc = Ok sc1 -> length (ti_iter (sc_src sc1)) <= length (ti_iter (sc_src sc)).
  Proof.
    induction fuel as [|fuel IH]; intros sc sc1 H; [discriminate|]. cbn [loop] in H. unfold scan_step at 1 in H.
    assert (Hp : forall x src, pop (sc_src sc) = Some (x, src) -> length (ti_iter src) <= length (ti_iter (sc_src sc))).
    { intros x src. unfold pop. destruct (ti_queue (sc_src sc)); [destruct (ti_iter (sc_src sc)); [discriminate|]|]; intros E0; injection E0 as <- <-; cbn; lia. }
    destruct (pop (sc_src sc)) as [[x src]|]; [|injection H as <-; auto]. specialize (Hp x src eq_refl).
    destruct (next_node t (sc_node sc) (f x)) as [[n|]| |]; try discriminate.
    - destruct (accept_index t n); apply IH in H; cbn in H; lia.
    - injection H as <-. cbn. lia.
  Qed.
  Lemma scan_moved (Hb : b <> []) fuel : forall sc sc' sc1 c, moved sc sc' -> loop (scan_step t f) fuel sc = Ok sc1 -> ti_iter (sc_src sc1) = c ++ b ->
    exists sc1', loop (scan_step t f) fuel sc' = Ok sc1' /\ moved sc1 sc1'.
  Proof.
    induction fuel as [|fuel IH]; intros sc sc' sc1 c Hm H Hc; [discriminate|]. pose proof (scan_shrinks _ _ _ H) as Hs. cbn [loop] in H |- *.
    destruct sc as [n0 p0 l0 i0 its chs [it q]], sc' as [n0' p0' l0' i0' its' chs' [it' q']]. destruct Hm as (M1 & M2 & M3 & M4 & M5 & M6 & M7 & r & M8 & M9). cbn in *. subst n0' p0' l0' i0' its' chs' q' it it'.
    unfold scan_step in H at 1. unfold scan_step at 1. cbn [sc_src sc_node sc_pat sc_len sc_i sc_items sc_chars] in *.
    assert (Hpop : exists x r1 q1, pop (mk_titer (r ++ b) q) = Some (x, mk_titer (r1 ++ b) q1) /\ pop (mk_titer (r ++ b') q) = Some (x, mk_titer (r1 ++ b') q1)).
    { unfold pop. cbn [ti_queue ti_iter]. destruct q as [|y q]; [|eexists y, r, q; auto]. destruct r as [|y r]; [|eexists y, r, []; auto]. exfalso. cbn [app] in *.
      unfold pop in H. cbn [ti_queue ti_iter] in H. destruct b as [|z b0]; [congruence|].
      assert (Hl : length (ti_iter (sc_src sc1)) <= length b0).
      { destruct (next_node t n0 (f z)) as [[n|]| |]; try discriminate; [destruct (accept_index t n); apply scan_shrinks in H; exact H|injection H as <-; cbn; lia]. }
      rewrite Hc, app_length in Hl. cbn in Hl. lia. }
    destruct Hpop as (x & r1 & q1 & E1 & E2). rewrite E1 in H. rewrite E2.
    destruct (next_node t n0 (f x)) as [[n|]| |]; try discriminate.
    - destruct (accept_index t n); (eapply IH; [|exact H|exact Hc]); repeat (split; [reflexivity|]); exists r1; auto.
    - injection H as <-. eexists. split; [reflexivity|]. repeat (split; [reflexivity|]). exists r1; auto.
  Qed.

  Lemma next_moved (Hb : b <> []) a c q q' r : next t f (mk_titer (a ++ b) q) = Ok (r, mk_titer (c ++ b) q') -> next t f (mk_titer (a ++ b') q) = Ok (r, mk_titer (c ++ b') q').
  Proof.
    intros H. destruct (next_ok t f Ht (mk_titer (a ++ b') q)) as (r2 & s2 & k2 & E2 & _). rewrite E2. unfold next in H, E2. cbn [ti_queue ti_iter] in H, E2.
    set (sc0 := mk_scan (tk_begin t) (accept_index t (tk_begin t)) 0 0 [] [] (mk_titer (a ++ b) q)) in H.
    set (sc0' := mk_scan (tk_begin t) (accept_index t (tk_begin t)) 0 0 [] [] (mk_titer (a ++ b') q)) in E2.
    assert (Hm : moved sc0 sc0') by (repeat (split; [reflexivity|]); exists a; auto).
    destruct (loop (scan_step t f) (S (length q + length (a ++ b))) sc0) as [sc1| |] eqn:L1; try discriminate. cbn [bind] in H.
    destruct (loop (scan_step t f) (S (length q + length (a ++ b'))) sc0') as [sc2| |] eqn:L2; try discriminate. cbn [bind] in E2.
    assert (Hc : ti_iter (sc_src sc1) = c ++ b).
    { destruct (sc_pat sc1) as [p|].
      - destruct (give_back _ _ _) as [rit qq]. destruct (nth_error (tk_makers t) p); cbn in H; [|discriminate]. injection H as _ H _. exact H.
      - injection H as _ H. rewrite H. reflexivity. }
    destruct (scan_moved Hb _ _ _ _ _ Hm L1 Hc) as (sc1' & L1' & M).
    assert (sc2 = sc1') as ->.
    { assert (Hd := loop_det (scan_step t f) (S (length q + length (a ++ b'))) (S (length q + length (a ++ b))) sc0'). rewrite L2, L1' in Hd. specialize (Hd ltac:(discriminate) ltac:(discriminate)). congruence. }
    destruct sc1 as [n0 p0 l0 i0 its chs [it qq]], sc1' as [n0' p0' l0' i0' its' chs' [it' qq']]. destruct M as (M1 & M2 & M3 & M4 & M5 & M6 & M7 & r1 & M8 & M9). cbn in *. subst n0' p0' l0' i0' its' chs' qq' it it'.
    apply app_inv_tail in M8. subst r1. destruct p0 as [p|].
    - destruct (give_back _ _ _) as [rit q2]. destruct (nth_error (tk_makers t) p); cbn in H, E2; [|discriminate]. congruence.
    - congruence.
  Qed.
  Lemma next_iter s r s' : next t f s = Ok (r, s') -> exists k, ti_iter s' = skipn k (ti_iter s).
  Proof. intros H. destruct (C19_lazy E T t f Ht s r s' H) as (n & _ & H1 & _). eauto. Qed.
  Lemma calls_iter s es s' : calls t f s es s' -> exists k, ti_iter s' = skipn k (ti_iter s).
  Proof.
    induction 1 as [s|s e s1 es s' H _ [k IH]]; [exists 0; reflexivity|]. destruct (next_iter _ _ _ H) as [j Hj]. rewrite Hj, skipn_skipn in IH. eauto.
  Qed.
  (** a suffix that still ends in [b] *)
  Lemma keeps_tail (l c : list T) k j : skipn k (skipn j l) = c ++ b -> forall a, l = a ++ b -> exists d, skipn j l = d ++ b.
  Proof.
    intros H a ->. assert (Hl := f_equal (@length T) H). rewrite !skipn_length, !app_length in Hl. exists (skipn j a). rewrite skipn_app.
    destruct (le_lt_dec j (length a)) as [Hj|Hj]; [replace (j - length a) with 0 by lia; reflexivity|].
    destruct (Nat.eq_dec (length b) 0) as [E0|E0]; [|lia]. apply length_zero_iff_nil in E0. rewrite E0, skipn_nil. reflexivity.
  Qed.
  Lemma calls_moved (Hb : b <> []) s es s' : calls t f s es s' -> forall a c, ti_iter s = a ++ b -> ti_iter s' = c ++ b -> calls t f (mk_titer (a ++ b') (ti_queue s)) es (mk_titer (c ++ b') (ti_queue s')).
  Proof.
    induction 1 as [s|s e s1 es s' H Hcs IH]; intros a c Ha Hc.
    - rewrite Ha in Hc. apply app_inv_tail in Hc as ->. constructor.
    - destruct (next_iter _ _ _ H) as [j Hj]. destruct (calls_iter _ _ _ Hcs) as [k Hk]. rewrite Hk, Hj in Hc. destruct (keeps_tail _ _ _ _ Hc _ Ha) as [d Hd]. rewrite <- Hj in Hd.
      econstructor; [|apply (IH d); [exact Hd|rewrite Hk, Hj; exact Hc]].
      apply (next_moved Hb). destruct s as [it q], s1 as [it1 q1]. cbn in *. subst it it1. rewrite <- Hd. exact H.
  Qed.
  Lemma collect_pre fuel : forall s acc l, loop (collect_step t f) fuel (s, acc) = Ok l -> exists z, l = acc ++ z.
  Proof.
    induction fuel as [|fuel IH]; intros s acc l H; [discriminate|]. cbn [loop] in *. unfold collect_step at 1 in H. cbn [fst snd] in *.
    destruct (next t f s) as [[[e|] s1]| |]; try discriminate.
    - destruct (IH _ _ _ H) as [z ->]. exists (e :: z). rewrite <- app_assoc. reflexivity.
    - injection H as <-. exists []. rewrite app_nil_r. reflexivity.
  Qed.
  Lemma collect_more fuel : forall s acc rest acc', loop (collect_step t f) fuel (s, acc) = Ok (acc ++ rest) -> loop (collect_step t f) fuel (s, acc') = Ok (acc' ++ rest).
  Proof.
    induction fuel as [|fuel IH]; intros s acc rest acc' H; [discriminate|]. cbn [loop] in *. unfold collect_step at 1 in H. unfold collect_step at 1. cbn [fst snd] in *.
    destruct (next t f s) as [[[e|] s1]| |]; try discriminate.
    - assert (exists rest1, rest = e :: rest1) as [rest1 ->].
      { destruct (collect_pre _ _ _ _ H) as [z Hz]. rewrite <- app_assoc in Hz. apply app_inv_head in Hz. eauto. }
      change (e :: rest1) with ([e] ++ rest1) in *. rewrite app_assoc in H |- *. eapply IH; eauto.
    - injection H as H. assert (rest = []) as -> by (apply (app_inv_head acc); rewrite app_nil_r; auto). rewrite app_nil_r. reflexivity.
  Qed.
End Proofs.

(** ** What a call of [next] returns depends only on the items that were read: with another continuation of the text behind
    them it returns the same and reads the same items *)
Theorem C89_read_only : forall E T (t : tokenizer E T) (f : T -> N), tok_ok t ->
  forall a b b' c q q' r, b <> [] ->
  next t f (mk_titer (a ++ b) q) = Ok (r, mk_titer (c ++ b) q') -> next t f (mk_titer (a ++ b') q) = Ok (r, mk_titer (c ++ b') q').
Proof. intros E T t f Ht a b b' c q q' r Hb H. eapply next_moved; eauto. Qed.
Print Assumptions C89_read_only.

(** ** When a token ends where [v] begins, the tokens from there on are those of the text [v] alone *)
Theorem C89_rest : forall E T (t : tokenizer E T) (f : T -> N), tok_ok t ->
  forall s es s' v, calls t f s es s' -> pend s' = v ->
  forall fuel rest, tok_collect fuel t f (tokenize_with v) = Ok rest -> tok_collect (length es + fuel) t f s = Ok (es ++ rest).
Proof.
  intros E T t f Ht s es s' v Hc Hp fuel rest Hr.
  assert (H0 : same_tokens t t) by (apply alike_tokens; auto; intros g items e He; exact He).
  unfold tok_collect in *. assert (Hg : forall acc, loop (collect_step t f) (length es + fuel) (s, acc) = Ok (acc ++ es ++ rest)).
  { induction Hc as [s|s e s1 es s' H _ IH]; intros acc.
    - cbn [length Nat.add app].
      assert (Hr' := tokens_collect t t f H0 fuel (tokenize_with v) s (eq_sym Hp)). unfold tok_collect in Hr'. rewrite Hr in Hr'. symmetry in Hr'. apply (collect_more t f _ _ _ _ _ Hr').
    - cbn [length Nat.add loop]. unfold collect_step at 1. cbn [fst snd]. rewrite H. rewrite IH by auto. rewrite <- app_assoc. reflexivity. }
  apply (Hg []).
Qed.
Print Assumptions C89_rest.

(** ** An edit of a text: the tokens that were read before the edited place stay as they are, and when after the edit a token ends
    where one ended before, the rest of the tokens is the same *)
Theorem C89_edit : forall E T (t : tokenizer E T) (f : T -> N), tok_ok t ->
  forall a b b' c before s1 r, b ++ c <> [] ->
  calls t f (tokenize_with (a ++ b ++ c)) before s1 -> ti_iter s1 = r ++ b ++ c ->
  exists s1', calls t f (tokenize_with (a ++ b' ++ c)) before s1' /\ ti_iter s1' = r ++ b' ++ c /\ ti_queue s1' = ti_queue s1 /\
    forall mid mid' s2 s2' v, calls t f s1 mid s2 -> calls t f s1' mid' s2' -> pend s2 = v -> pend s2' = v ->
    forall fuel rest, tok_collect fuel t f (tokenize_with v) = Ok rest ->
    tok_collect (length (before ++ mid) + fuel) t f (tokenize_with (a ++ b ++ c)) = Ok (before ++ mid ++ rest) /\
    tok_collect (length (before ++ mid') + fuel) t f (tokenize_with (a ++ b' ++ c)) = Ok (before ++ mid' ++ rest).
Proof.
  intros E T t f Ht a b b' c before s1 r Hb H1 Hr. exists (mk_titer (r ++ b' ++ c) (ti_queue s1)).
  assert (H1' := calls_moved t f Ht (b ++ c) (b' ++ c) Hb _ _ _ H1 a r eq_refl Hr). split; [exact H1'|]. split; [reflexivity|]. split; [reflexivity|].
  assert (Happ : forall s es s', calls t f s es s' -> forall es' s'', calls t f s' es' s'' -> calls t f s (es ++ es') s'') by (induction 1; intros; cbn [app]; auto; econstructor; eauto).
  intros mid mid' s2 s2' v H2 H2' Hv Hv' fuel rest Hrest. rewrite (app_assoc before mid rest), (app_assoc before mid' rest). split; (eapply C89_rest; [exact Ht|eapply Happ; eauto|eauto|eauto]).
Qed.
Print Assumptions C89_edit.

(** ** Example: "if iffy 42" becomes "if x 7y 42": "if" stays, and so do the last blank and "42" *)
Definition plain_items (w : list N) : list (nat * N) := map (fun c => (0, c)) w.
Definition edit_a := plain_items [105; 102; 32]%N.
Definition edit_old := plain_items [105; 102; 102; 121]%N.
Definition edit_new := plain_items [120; 32; 55; 121]%N.
Definition edit_c := plain_items [32; 52; 50]%N.
Definition made (i : nat) (w : list N) := tag i w (plain_items w).
Ltac run_calls := repeat (eapply calls_cons; [vm_compute; reflexivity|]); apply calls_nil.
Example C89_example : exists s1 s1' s2 s2',
  calls demo_tok snd (tokenize_with (edit_a ++ edit_old ++ edit_c)) [made 0 [105; 102]%N] s1 /\ ti_iter s1 = [] ++ edit_old ++ edit_c /\ ti_queue s1 = plain_items [32]%N /\
  calls demo_tok snd (tokenize_with (edit_a ++ edit_new ++ edit_c)) [made 0 [105; 102]%N] s1' /\ ti_iter s1' = [] ++ edit_new ++ edit_c /\
  calls demo_tok snd s1 [made 3 [32]%N; made 1 [105; 102; 102; 121]%N] s2 /\ pend s2 = edit_c /\
  calls demo_tok snd s1' [made 3 [32]%N; made 1 [120]%N; made 3 [32]%N; made 2 [55]%N; made 1 [121]%N] s2' /\ pend s2' = edit_c /\
  tok_collect 100 demo_tok snd (tokenize_with edit_c) = Ok [made 3 [32]%N; made 2 [52; 50]%N].
Proof.
  eexists _, _, _, _. split; [run_calls|]. split; [vm_compute; reflexivity|]. split; [vm_compute; reflexivity|]. split; [run_calls|]. split; [vm_compute; reflexivity|].
  split; [run_calls|]. split; [vm_compute; reflexivity|]. split; [run_calls|]. split; vm_compute; reflexivity.
Qed.

(** at the end of the text what follows does matter: the end is read like an item *)
Theorem C89_end_needed : exists a b' q r q' r', let e := mk_titer a [] in
  next demo_tok snd e = Ok (Some r, mk_titer [] q) /\ next demo_tok snd (mk_titer (a ++ b') []) = Ok (Some r', mk_titer [] q') /\ r <> r'.
Proof. exists (plain_items [105; 102]%N), (plain_items [105]%N). eexists _, _, _, _. split; [vm_compute; reflexivity|]. split; [vm_compute; reflexivity|]. discriminate. Qed.
Print Assumptions C89_end_needed.

(** ** Words *)
Section Words.
  Context {E T : Type} (t : tokenizer E T) (f : T -> N) (sep : N -> Prop).
  Hypothesis Ht : tok_ok t.
  Hypothesis Hne : forall p, ~ tok_accepts t [] p.
  Hypothesis Hpure : forall w p, tok_accepts t w p -> Forall sep w \/ Forall (fun c => ~ sep c) w.
  Variables (x y : T) (v : list T).
  Hypothesis Hsw : sep (f x) <-> ~ sep (f y).

  Lemma over_switch (p : list T) k q : length (p ++ [x]) < k -> k <= length ((p ++ [x]) ++ y :: v) -> ~ tok_accepts t (map f (firstn k ((p ++ [x]) ++ y :: v))) q.
  Proof.
    intros H1 H2 Ha. rewrite firstn_app, firstn_all2 in Ha by lia. destruct (k - length (p ++ [x])) as [|n] eqn:En; [lia|]. cbn [firstn] in Ha. rewrite !map_app in Ha. cbn [map app] in Ha.
    destruct (Hpure _ _ Ha) as [HF|HF]; rewrite !Forall_app in HF; destruct HF as [[_ HF] HF']; inversion HF; inversion HF'; subst; tauto.
  Qed.
  Definition ends_x (p : list T) : Prop := p = [] \/ exists p0, p = p0 ++ [x].
  Lemma ends_skip p k : ends_x p -> ends_x (skipn k p).
  Proof.
    intros [->|[p0 ->]]; [left; apply skipn_nil|]. rewrite skipn_app. destruct (le_lt_dec k (length p0)) as [H|H].
    - replace (k - length p0) with 0 by lia. right. exists (skipn k p0). reflexivity.
    - left. rewrite skipn_all2 by lia. destruct (k - length p0) as [|n] eqn:En; [lia|]. cbn [skipn app]. apply skipn_nil.
  Qed.
  Lemma next_word s e s' s2 : ends_x (pend s) -> next t f s = Ok (Some e, s') -> pend s2 = pend s ++ y :: v -> exists s2', next t f s2 = Ok (Some e, s2') /\ pend s2' = pend s' ++ y :: v.
  Proof.
    intros He H H2. destruct (next_ok t f Ht s) as (r & s1 & k & E1 & [R _ _ _ _]). rewrite H in E1. inversion E1; subst r s1. clear E1. destruct R as (n & p & m & (L1 & L2 & L3) & M1 & M2 & Q1).
    assert (Hn : n <> 0) by (intros ->; eapply Hne; exact L2). destruct He as [He|[p0 He]]; [rewrite He in L1; cbn in L1; lia|].
    assert (L : longest (tok_accepts t) f (pend s2) n p).
    { rewrite H2. split; [rewrite app_length; lia|]. split; [rewrite firstn_app; replace (n - length (pend s)) with 0 by lia; cbn [firstn]; rewrite app_nil_r; exact L2|].
      intros k' p' Hk. destruct (le_lt_dec k' (length (pend s))) as [Hle|Hlt].
      - rewrite firstn_app. replace (k' - length (pend s)) with 0 by lia. cbn [firstn]. rewrite app_nil_r. apply L3. lia.
      - rewrite He in *. apply over_switch; lia. }
    destruct (next_ok t f Ht s2) as (r2 & s2' & k2 & E2 & [R2 _ _ _ _]). destruct r2 as [e2|].
    - destruct R2 as (n' & p' & m' & L' & M1' & -> & Q2). destruct (longest_det _ _ (tok_accepts_det t) _ _ _ _ _ L L') as [-> ->]. exists s2'. rewrite E2. assert (m' = m) as -> by congruence. subst e.
      rewrite Q1, Q2, H2. rewrite firstn_app, skipn_app. replace (n' - length (pend s)) with 0 by lia. cbn [firstn skipn]. rewrite app_nil_r. auto.
    - exfalso. destruct R2 as [R2 _]. destruct L as (A1 & A2 & _). exact (R2 _ _ A1 A2).
  Qed.
  Lemma calls_word s es s' : calls t f s es s' -> ends_x (pend s) -> forall s2, pend s2 = pend s ++ y :: v -> exists s2', calls t f s2 es s2' /\ pend s2' = pend s' ++ y :: v /\ ends_x (pend s').
  Proof.
    induction 1 as [s|s e s1 es s' H _ IH]; intros He s2 H2; [exists s2; split; [constructor|auto]|].
    destruct (next_word _ _ _ _ He H H2) as (s2' & E2 & Q2). destruct (next_ok t f Ht s) as (r & s1' & k & E1 & [R _ _ _ _]). rewrite H in E1. inversion E1; subst r s1'. clear E1. destruct R as (n & p & m & _ & _ & _ & Q1).
    destruct (IH ltac:(rewrite Q1; apply ends_skip; auto) s2' Q2) as (s3 & C3 & Q3 & E3). exists s3. split; auto. econstructor; eauto.
  Qed.
  Lemma none_word s s0 s2 : ends_x (pend s) -> pend s <> [] -> next t f s = Ok (None, s0) -> pend s2 = pend s ++ y :: v -> exists s0', next t f s2 = Ok (None, s0').
  Proof.
    intros [He|[p0 He]] Hn H H2; [congruence|]. destruct (next_ok t f Ht s) as (r & s1 & k & E1 & [R _ _ _ _]). rewrite H in E1. inversion E1; subst r s1. clear E1. destruct R as [R _].
    destruct (next_ok t f Ht s2) as (r2 & s2' & k2 & E2 & [R2 _ _ _ _]). destruct r2 as [e2|]; [|eauto]. exfalso. destruct R2 as (n & p & m & (L1 & L2 & _) & _). rewrite H2 in L1, L2.
    destruct (le_lt_dec n (length (pend s))) as [Hle|Hlt].
    - rewrite firstn_app in L2. replace (n - length (pend s)) with 0 in L2 by lia. cbn [firstn] in L2. rewrite app_nil_r in L2. exact (R n p Hle L2).
    - rewrite He in *. exact (over_switch _ _ _ Hlt L1 L2).
  Qed.
End Words.

(** ** If no pattern matches a text in which separator characters and others are mixed, a text that is cut between a separator and
    another character falls into two independent parts: the tokens of the whole are those of the left part, followed by those of the
    right part when the left part was used up *)
Theorem C89_words : forall E T P PErr (parse : P -> hir + PErr) env fuel (patterns : list (P * (list N -> list T -> E))) hirs t ws,
  parses_wf parse -> env_ok env -> env_honest env -> parsed parse patterns hirs -> build P PErr parse env fuel patterns = BOk (t, ws) ->
  (forall h, In h hirs -> ~ matches (actual h) []) ->
  forall f (sep : N -> Prop), (forall h w, In h hirs -> matches (actual h) w -> Forall sep w \/ Forall (fun c => ~ sep c) w) ->
  forall u x y v, (sep (f x) <-> ~ sep (f y)) ->
  forall es s, calls t f (tokenize_with (u ++ [x])) es s ->
  (pend s = [] -> forall fuel' rest, tok_collect fuel' t f (tokenize_with (y :: v)) = Ok rest ->
     tok_collect (length es + fuel') t f (tokenize_with (u ++ x :: y :: v)) = Ok (es ++ rest)) /\
  (pend s <> [] -> forall s0, next t f s = Ok (None, s0) -> exists fuel', tok_collect fuel' t f (tokenize_with (u ++ x :: y :: v)) = Ok es).
Proof.
  intros E T P PErr parse env fuel ps hirs t ws W O H Hp Hb Hnn f sep Hpure u x y v Hsw es s Hc.
  assert (Ht : tok_ok t) by apply (inv parse W _ _ _ _ _ _ O Hp Hb).
  assert (Hacc : forall w p, tok_accepts t w p -> exists h, In h hirs /\ matches (actual h) w).
  { intros w p Ha. apply (C56_accepts E T P PErr parse env fuel ps hirs t ws W O H Hp Hb) in Ha as [(h & Hh & Hm) _]. exists h. split; auto. eapply nth_error_In; eauto. }
  assert (Hne : forall p, ~ tok_accepts t [] p) by (intros p Ha; destruct (Hacc _ _ Ha) as (h & Hh & Hm); eapply Hnn; eauto).
  assert (Hpu : forall w p, tok_accepts t w p -> Forall sep w \/ Forall (fun c => ~ sep c) w) by (intros w p Ha; destruct (Hacc _ _ Ha) as (h & Hh & Hm); eauto).
  assert (He : ends_x x (pend (tokenize_with (u ++ [x])))) by (right; exists u; reflexivity).
  destruct (calls_word t f sep Ht Hne Hpu x y v Hsw _ _ _ Hc He (tokenize_with (u ++ x :: y :: v))) as (s2 & C2 & Q2 & E2); [cbn; rewrite <- app_assoc; reflexivity|].
  split.
  - intros Hs fuel' rest Hr. rewrite Hs in Q2. exact (C89_rest E T t f Ht _ _ _ _ C2 Q2 _ _ Hr).
  - intros Hs s0 Hn. destruct (none_word t f sep Ht Hpu x y v Hsw _ _ s2 E2 Hs Hn Q2) as [s0' Hn']. exists (length es + 1). unfold tok_collect.
    assert (Hg : forall acc, loop (collect_step t f) (length es + 1) (tokenize_with (u ++ x :: y :: v), acc) = Ok (acc ++ es)); [|exact (Hg [])].
    clear - C2 Hn'. induction C2 as [s|s e s1 es s' H _ IH]; intros acc.
    + cbn [length Nat.add loop]. unfold collect_step. cbn [fst snd]. rewrite Hn', app_nil_r. reflexivity.
    + cbn [length Nat.add loop]. unfold collect_step at 1. cbn [fst snd]. rewrite H, IH by auto. rewrite <- app_assoc. reflexivity.
Qed.
Print Assumptions C89_words.
Example C89_words_example : parses_wf (parse_in demo_hirs) /\ env_ok plain_env /\ env_honest plain_env /\ parsed (parse_in demo_hirs) (tagged 4) demo_hirs /\
  (exists ws, build nat unit (parse_in demo_hirs) plain_env 100 (tagged 4) = BOk (demo_tok, ws)) /\ (forall h, In h demo_hirs -> ~ matches (actual h) []) /\
  (forall h w, In h demo_hirs -> matches (actual h) w -> Forall blank w \/ Forall (fun c => ~ blank c) w) /\ (blank 102 <-> ~ blank 32) /\
  (exists s, calls demo_tok snd (tokenize_with (plain_items [105]%N ++ [(0, 102%N)])) [made 0 [105; 102]%N] s /\ pend s = []) /\
  tok_collect 10 demo_tok snd (tokenize_with (plain_items [32; 52]%N)) = Ok [made 3 [32]%N; made 2 [52]%N] /\
  tok_collect 11 demo_tok snd (tokenize_with (plain_items [105; 102; 32; 52]%N)) = Ok [made 0 [105; 102]%N; made 3 [32]%N; made 2 [52]%N] /\
  (exists s s0, calls demo_tok snd (tokenize_with (plain_items [105; 102]%N ++ [(0, 33%N)])) [made 0 [105; 102]%N] s /\ pend s <> [] /\ next demo_tok snd s = Ok (None, s0)).
Proof.
  split; [intros p h; apply (parse_in_wf _ demo_wf)|]. split; [apply plain_ok|]. split; [apply plain_ok|]. split; [repeat constructor|]. split; [exists demo_ws; exact demo_built|].
  split; [apply C56_tokens_example|]. split; [exact demo_class|]. split; [unfold blank; split; [discriminate|intros H; exfalso; apply H; reflexivity]|].
  split; [eexists; split; [run_calls|reflexivity]|]. split; [vm_compute; reflexivity|]. split; [vm_compute; reflexivity|].
  eexists _, _. split; [run_calls|]. split; [vm_compute; discriminate|vm_compute; reflexivity].
Qed.
