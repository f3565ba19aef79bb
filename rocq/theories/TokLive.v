(** What a built tokenizer can read before it is stuck, in terms of the patterns one by one,
    and tokenizers that agree up to a renumbering of the patterns. *)
From Verif Require Import Lib Hir NfaPath NfaSem NfaModel NfaProofs NfaExact TokNfa DfaModel DfaEdges DfaProofs DfaTop MinModel MinProofs MinTop TokModel TokSpec TokProofs TokTop TokMore.

Section Live.
  Context {E T : Type}.
  Variables (P PErr : Type) (parse : P -> hir + PErr).
  Hypothesis Hwf : forall p h, parse p = inl h -> wf_hir h.

  Lemma build_live (patterns : list (P * (list N -> list T -> E))) hirs env fuel t ws :
    env_ok env -> env_honest env -> Forall2 (fun x h => parse (fst x) = inl h) patterns hirs ->
    build P PErr parse env fuel patterns = BOk (t, ws) ->
    forall w, tok_run t w <> None <-> w = [] \/ exists h, In h hirs /\ live h w.
  Proof.
    intros [Eo Em] Hh Hf Hb w.
    assert (Hp : parse_all P PErr parse (map fst patterns) = inl hirs).
    { clear -Hf. induction Hf as [|x h l hs Hx Hl IH]; simpl; auto. rewrite Hx, IH. reflexivity. }
    assert (Hw : Forall wf_hir hirs) by (clear -Hf Hwf; induction Hf; constructor; eauto).
    destruct (tnfa_of_spec hirs Hw) as [(nf & En & Hg)|(i & h & e & En & _)].
    2:{ unfold build in Hb. rewrite split_map, Hp, En in Hb. discriminate. }
    rewrite <- (tg_live _ _ Hg).
    destruct (dfa_of_any nf (tnfa_good_wf _ _ Hg)) as (F & nodes & HF).
    apply (build_mono _ _ _ _ _ (max F fuel)) in Hb; [|lia]. destruct (HF (be_order env) (max F fuel) Eo) as (en & ws' & Ed & Hgood & _ & Hn & Hq'); [lia|].
    unfold build in Hb. rewrite split_map, Hp, En, Ed in Hb. cbn [bind] in Hb.
    destruct (minify_good (be_min env) _ _ _ Em Hh Hgood) as (d' & E2 & G2 & _ & Ho). rewrite E2 in Hb. cbn [bind] in Hb.
    destruct (@tok_new_ok E T d' (map snd patterns) (dg_target _ _ _ G2) (dg_begin _ _ _ G2) (fun i p H => proj1 (dg_keys _ _ _ G2 i p H)) (dg_nodup _ _ _ G2)) as (en' & Et & _).
    rewrite Et in Hb. cbn [bind of_res] in Hb. inversion Hb; subst t ws'. unfold tok_run. cbn [tk_goto tk_begin].
    specialize (Ho w). unfold obs in Ho. cbn [d_nodes d_begin d_end] in Ho. specialize (Hn w).
    assert (Hq : drun (d_nodes d') (d_begin d') w = None <-> drun nodes 0 w = None).
    { destruct (drun (d_nodes d') (d_begin d') w), (drun nodes 0 w); simpl in Ho; try discriminate; split; congruence. }
    rewrite Hq. split; [apply Hq'|]. intros [q Hp'] He. exact (proj1 Hn He q Hp').
  Qed.
End Live.

(** ** Agreement up to the numbers of the patterns *)
Definition same_makers {E T} (t t' : tokenizer E T) : Prop :=
  forall w p m, tok_accepts t w p -> nth_error (tk_makers t) p = Some m -> exists p', tok_accepts t' w p' /\ nth_error (tk_makers t') p' = Some m.

Lemma same_maker_lt {E T} (t t' : tokenizer E T) w p : tok_ok t -> same_makers t t' -> tok_accepts t w p -> exists p', tok_accepts t' w p'.
Proof.
  intros Ht Hs Hp. assert (Hlt : p < length (tk_makers t)) by (destruct Hp as (n & _ & Ha); eapply to_maker; eauto).
  destruct (nth_error (tk_makers t) p) as [m|] eqn:Em; [|apply nth_error_None in Em; lia].
  destruct (Hs w p m Hp Em) as (p' & Hp' & _). eauto.
Qed.

Lemma next_renumbered {E T} (t t' : tokenizer E T) f : tok_ok t -> tok_ok t' -> same_makers t t' -> same_makers t' t ->
  (forall w, tok_run t w = None <-> tok_run t' w = None) -> forall s, next t f s = next t' f s.
Proof.
  intros Ht Ht' Ha Ha' Hd s.
  destruct (next_ok t f Ht s) as (r & s1 & k & E1 & [R1 S1 A1 D1 P1]), (next_ok t' f Ht' s) as (r' & s2 & k' & E2 & [R2 S2 A2 D2 P2]).
  rewrite E1, E2.
  assert (k = k') as <-.
  { destruct (Nat.lt_trichotomy k k') as [H|[H|H]]; auto; exfalso.
    - destruct D1 as [D1|D1]; [lia|]. apply (A2 k H). apply Hd; auto.
    - destruct D2 as [D2|D2]; [lia|]. apply (A1 k' H). apply Hd; auto. }
  assert (Hiter : ti_iter s1 = ti_iter s2) by congruence.
  assert (Heq : pend s1 = pend s2 -> s1 = s2).
  { unfold pend. rewrite Hiter. intros H. apply app_inv_tail in H. destruct s1, s2; simpl in *; congruence. }
  destruct r as [e|], r' as [e'|].
  - destruct R1 as (n & p & m & (L1 & L2 & L3) & M1 & -> & Q1), R2 as (n' & p' & m' & (K1 & K2 & K3) & M2 & -> & Q2).
    assert (n = n') as <-.
    { destruct (Nat.lt_trichotomy n n') as [H|[H|H]]; auto; exfalso.
      - destruct (same_maker_lt _ _ _ _ Ht' Ha' K2) as [q Hq]. apply (L3 n' q); auto; lia.
      - destruct (same_maker_lt _ _ _ _ Ht Ha L2) as [q Hq]. apply (K3 n q); auto; lia. }
    destruct (Ha _ _ _ L2 M1) as (q & Hq & Mq). rewrite (tok_accepts_det t' _ _ _ Hq K2) in Mq. assert (m = m') as <- by congruence.
    rewrite Heq; congruence.
  - destruct R1 as (n & p & m & (L1 & L2 & _) & _), R2 as (N2 & _). exfalso.
    destruct (same_maker_lt _ _ _ _ Ht Ha L2) as [q Hq]. exact (N2 n q L1 Hq).
  - destruct R2 as (n & p & m & (L1 & L2 & _) & _), R1 as (N2 & _). exfalso.
    destruct (same_maker_lt _ _ _ _ Ht' Ha' L2) as [q Hq]. exact (N2 n q L1 Hq).
  - destruct R1 as [_ Q1], R2 as [_ Q2]. rewrite Heq; congruence.
Qed.

(** the items of a call, when only the languages agree *)
Lemma cuts_same {E T} (t t' : tokenizer E T) f : tok_ok t -> tok_ok t' ->
  (forall w i, tok_accepts t w i -> exists j, tok_accepts t' w j) -> (forall w i, tok_accepts t' w i -> exists j, tok_accepts t w j) ->
  (forall w, tok_run t w = None <-> tok_run t' w = None) -> forall s r s1, next t f s = Ok (r, s1) ->
  exists r', next t' f s = Ok (r', s1) /\ (r = None <-> r' = None).
Proof.
  intros Ht Ht' Ha Ha' Hd s r s1 Hn.
  destruct (next_ok t f Ht s) as (r0 & s0 & k & E1 & [R1 S1 A1 D1 P1]), (next_ok t' f Ht' s) as (r' & s2 & k' & E2 & [R2 S2 A2 D2 P2]).
  rewrite Hn in E1. inversion E1; subst r0 s0. exists r'. rewrite E2.
  assert (k = k') as <-.
  { destruct (Nat.lt_trichotomy k k') as [H|[H|H]]; auto; exfalso.
    - destruct D1 as [D1|D1]; [lia|]. apply (A2 k H). apply Hd; auto.
    - destruct D2 as [D2|D2]; [lia|]. apply (A1 k' H). apply Hd; auto. }
  assert (Hiter : ti_iter s1 = ti_iter s2) by congruence.
  assert (Heq : pend s1 = pend s2 -> s1 = s2).
  { unfold pend. rewrite Hiter. intros H. apply app_inv_tail in H. destruct s1, s2; simpl in *; congruence. }
  destruct r as [e|], r' as [e'|].
  - destruct R1 as (n & p & m & (L1 & L2 & L3) & M1 & -> & Q1), R2 as (n' & p' & m' & (K1 & K2 & K3) & M2 & -> & Q2).
    assert (n = n') as <-.
    { destruct (Nat.lt_trichotomy n n') as [H|[H|H]]; auto; exfalso.
      - destruct (Ha' _ _ K2) as [q Hq]. apply (L3 n' q); auto; lia.
      - destruct (Ha _ _ L2) as [q Hq]. apply (K3 n q); auto; lia. }
    rewrite Heq by congruence. split; auto. split; discriminate.
  - destruct R1 as (n & p & m & (L1 & L2 & _) & _), R2 as (N2 & _). exfalso.
    destruct (Ha _ _ L2) as [q Hq]. exact (N2 n q L1 Hq).
  - destruct R2 as (n & p & m & (L1 & L2 & _) & _), R1 as (N2 & _). exfalso.
    destruct (Ha' _ _ L2) as [q Hq]. exact (N2 n q L1 Hq).
  - destruct R1 as [_ Q1], R2 as [_ Q2]. rewrite Heq by congruence. split; auto. split; auto.
Qed.

(** an input that is accepted as a whole is one token *)
Lemma whole_match {E T} (t : tokenizer E T) f : tok_ok t -> forall items p m, tok_accepts t (map f items) p -> nth_error (tk_makers t) p = Some m ->
  exists s1, next t f (tokenize_with items) = Ok (Some (m (map f items) items), s1).
Proof.
  intros Ht items p m Ha Hm. destruct (next_ok t f Ht (tokenize_with items)) as (r & s1 & k & E1 & [R1 S1 A1 D1 P1]). exists s1. rewrite E1. f_equal. f_equal.
  assert (Hpend : pend (tokenize_with items) = items) by reflexivity. destruct r as [e|].
  - destruct R1 as (n & q & m' & (L1 & L2 & L3) & M1 & -> & Q1). rewrite Hpend in *.
    assert (n = length items) as ->.
    { destruct (Nat.eq_dec n (length items)) as [|Hne]; auto. exfalso. apply (L3 (length items) p); [lia|]. rewrite firstn_all. auto. }
    rewrite firstn_all in *. rewrite (tok_accepts_det t _ _ _ L2 Ha) in M1. congruence.
  - destruct R1 as [N1 _]. exfalso. apply (N1 (length items) p); rewrite Hpend; auto. rewrite firstn_all. auto.
Qed.

Lemma accept_any {E T} hirs (makers : list (list N -> list T -> E)) env t : built hirs makers env t -> env_honest env ->
  forall w i, pat_lang hirs i w -> exists j, tok_accepts t w j.
Proof.
  intros B Hh w i G.
  assert (Hlt : i < length hirs) by (destruct G as (h & Hi & _); eapply nth_error_Some_lt; eauto).
  assert (Hdec : (exists j, tok_accepts t w j) \/ forall j, ~ tok_accepts t w j).
  { unfold tok_accepts. destruct (tok_run t w) as [n|] eqn:Er; [|right; intros j (n & Hn & _); congruence].
    destruct (aget Nat.eqb n (tk_end t)) as [j|] eqn:Ea; [left; exists j, n; auto|right; intros j (n' & Hn & Hj); congruence]. }
  destruct Hdec as [Hj|Hno]; auto. exfalso.
  assert (Hall : forall j, j < length hirs -> ~ pat_lang hirs j w).
  { induction j as [j IH] using lt_wf_ind. intros Hj Hm'. apply (Hno j). apply (bt_accept _ _ _ _ B Hh). split; auto. split; auto.
    intros j' Hj'. apply IH; auto. lia. }
  eapply Hall; eauto.
Qed.
