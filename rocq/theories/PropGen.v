(** * Properties C38, C39: the macro [parser!] *)
From Coq Require Import List Arith Lia Bool String.
From Verif Require Import Lib Grammar LrModel LrSpec LrSets LrStates LrNew LrTop LrMono GramRename ParseModel Trees ParseSpec ParseInv ParseTop ParseMore ParseHash GenModel GenSpec GenProofs GenTop ParseExamples.
Import ListNotations.
Local Notation length := List.length.

Lemma lr_new_inv e fuel rules start p w : lr_env_ok e -> no_eoi rules -> lr_new e fuel rules start = Ok (p, w) ->
  exists ss, start_symbol rules = Ok ss /\ ~ In ss (nonterminals rules) /\ new_result rules start ss (Ok (p, w)).
Proof.
  intros He Heoi H. destruct (lr_new_ok e rules start He Heoi) as (ss & Ess & Hss & F & r & HF & Hr). exists ss. split; auto. split; auto.
  assert (G : lr_new e (fuel + F) rules start = Ok (p, w)) by (apply (lr_new_mono e fuel); auto; [congruence|lia]). rewrite HF in G by lia. subst r. auto.
Qed.
(** the internal start symbol coincides with the start symbol only when that occurs nowhere *)
Lemma start_ss rules start ss : ~ In ss (nonterminals rules) -> ~ dangling (augment rules start ss) (length rules) -> (start = ss <-> ~ In start (nonterminals rules)).
Proof.
  intros Hss Hd. split; [intros ->; auto|]. intros Hst. destruct (Nat.eq_dec start ss) as [|Hne]; auto. exfalso. apply Hd.
  exists [], (length rules), 0, TEoi, (mk_rule ss [NT start]), start, TEoi. split; [constructor|]. split; [apply augment_start|]. split; auto. split.
  - intros r Hr. unfold augment in Hr. apply in_app_iff in Hr as [Hr|[<-|[]]]; simpl; [|auto]. intros E. apply Hst. apply nonterminals_spec. exists r. auto.
  - simpl. exists []. constructor.
Qed.

Section Macro.
  Context {N T E : Type} (nix : N -> nat) (tix : T -> nat).

  Lemma written_api mi (s : syntax N T E) : written nix tix mi s -> api_syntax nix tix s.
  Proof.
    intros (_ & L & W). apply Forall_forall. intros c Hc. apply In_nth_error in Hc as [i Hc].
    destruct (nth_error (mi_rules mi) i) as [r|] eqn:Er; [|apply nth_error_None in Er; assert (i < length (sx_rules s)) by (apply nth_error_Some; congruence); lia].
    destruct (W i r Er) as (n & v & l & _ & _ & _ & H). rewrite Hc in H. injection H as ->. constructor.
  Qed.
  Lemma macro_syntax_ok (mi : minput N T E) keys s0 : macro_syntax mi = Ok (keys, s0) ->
    exists st i0, foldM (rule_step (name_map token_key_eqb (mi_tokens mi)) (name_map String.eqb (mi_symbols mi))) (mi_rules mi) (mk_ms None [] sb_new) = Ok st /\
      aget String.eqb (mi_start mi) (name_map String.eqb (mi_symbols mi)) = Some i0 /\ keys = ms_keys st /\ s0 = mk_syntax (ms_rules st) i0.
  Proof.
    unfold macro_syntax. cbv zeta. intros H. apply bind_Ok in H as (st & Hst & H). apply bind_Ok in H as (i0 & Hi0 & H). injection H as <- <-. apply of_opt_Ok in Hi0. exists st, i0. auto.
  Qed.

  (** both grammars at once *)
  Lemma both mi (s : syntax N T E) st i0 : distinct tix (mi_tokens mi) -> distinct nix (mi_symbols mi) -> written nix tix mi s ->
    foldM (rule_step (name_map token_key_eqb (mi_tokens mi)) (name_map String.eqb (mi_symbols mi))) (mi_rules mi) (mk_ms None [] sb_new) = Ok st ->
    aget String.eqb (mi_start mi) (name_map String.eqb (mi_symbols mi)) = Some i0 ->
    In i0 (nonterminals (map cr_rule (ms_rules st))) <-> In (sx_start s) (nonterminals (gram s)).
  Proof.
    intros Dt Dn Hw Hloop Hi0. rewrite (start_real nix tix mi s i0 Hw Hi0). split; intros H.
    - apply nonterminals_spec in H as (r & Hr & H). apply nonterminals_spec. exists (rrule (tval tix mi) (sval nix mi) r).
      rewrite (gram_real nix tix mi s st Hw Hloop). split; [apply in_map; auto|]. destruct H as [<-|H]; [left; auto|right]. unfold rrule. simpl. apply in_map_iff. exists (NT i0). auto.
    - apply nonterminals_spec in H as (r & Hr & H). rewrite (gram_real nix tix mi s st Hw Hloop) in Hr. apply in_map_iff in Hr as (r0 & <- & Hr0).
      assert (G : exists a, sval nix mi a = sval nix mi i0 /\ In a (nonterminals (map cr_rule (ms_rules st)))).
      { destruct H as [H|H].
        - exists (r_lhs r0). split; auto. apply nonterminals_spec. exists r0. auto.
        - unfold rrule in H. simpl in H. apply in_map_iff in H as ([a|t] & HX & H); simpl in HX; [|discriminate]. exists a. split; [congruence|]. apply nonterminals_spec. exists r0. auto. }
      destruct G as (a & Ea & Ha). destruct (G_nt mi st Hloop a Ha) as [k Hk]. rewrite <- (sval_inj nix mi Dn _ _ _ _ Hk Hi0 Ea). auto.
  Qed.

  Lemma macro_main e e' g mi (s : syntax N T E) P ws fuel keys p : lr_env_ok e -> gen_env_ok g ->
    distinct tix (mi_tokens mi) -> distinct nix (mi_symbols mi) -> written nix tix mi s -> makes e' s P ws -> expand e fuel mi = Ok (keys, p) ->
    exists P', generated nix tix g mi keys p = Ok P' /\ forall fuel w, parse_full tix P' fuel w = parse_full tix P fuel w /\
      parse_calls tix P' fuel w = parse_calls tix P fuel w /\ parse_errors tix P' fuel w = parse_errors tix P fuel w.
  Proof.
    intros He Hg Dt Dn Hw Hmk Hx. pose proof (written_api mi s Hw) as Hapi.
    unfold expand in Hx. apply bind_Ok in Hx as ([ks s0] & Hs0 & Hx). apply bind_Ok in Hx as ([P0 ws0] & HP0 & Hx). cbn [fst snd] in *. injection Hx as <- <-.
    destruct (macro_syntax_ok _ _ _ Hs0) as (st & i0 & Hloop & Hi0 & -> & ->).
    unfold lr1_new in HP0. cbn [sx_rules sx_start] in HP0. apply bind_Ok in HP0 as ([p0 w0] & Hp0 & HP0). cbn [fst snd] in HP0. injection HP0 as <- <-.
    set (G := map cr_rule (ms_rules st)) in *. pose proof (G_eoi mi st Hloop) as Geoi. fold G in Geoi.
    destruct (lr_new_inv e fuel G i0 p0 w0 He Geoi Hp0) as (ss & Ess & Hss & Hr).
    destruct (makes_made nix tix e' s P ws Hapi Hmk) as [ss' M].
    assert (Hnd' : ~ dangling (augment (gram s) (sx_start s) ss') (length (gram s))).
    { destruct Hmk as [He' [fuel' Hf]]. unfold lr1_new in Hf. apply bind_Ok in Hf as ([pb wb] & Hb & _). destruct (lr_new_inv e' fuel' (gram s) (sx_start s) pb wb He' (md_eoi _ _ _ _ M) Hb) as (ss2 & E2 & _ & _ & H2 & _).
      rewrite (md_ss _ _ _ _ M) in E2. injection E2 as <-. exact H2. }
    destruct Hr as (C0 & Hnd0 & _).
    assert (Hst : i0 = ss <-> sx_start s = ss').
    { rewrite (start_ss G i0 ss Hss Hnd0), (start_ss (gram s) (sx_start s) ss' (md_fresh _ _ _ _ M) Hnd'). unfold G. rewrite (both mi s st i0); auto. tauto. }
    destruct (renaming nix tix mi s st i0 Hw Hloop Hi0 Dt Dn ss ss' Hss (md_fresh _ _ _ _ M) Hst) as (f & h & Hf & Hh & Hft & Hhn & Hhss & Haug). fold G in Hft, Hhn, Haug.
    destruct (tables nix tix mi st i0 Hloop Hi0 g p0 ss f h Hg C0 Hf Hh Hft Hhn) as (ac & go & Eac & Ego & Hren).
    assert (Hlen : length G = length (gram s)) by (unfold G, gram; rewrite !map_length; apply (lens nix tix mi s st Hw Hloop)).
    set (pf := mk_parser (augment (gram s) (sx_start s) ss') ac go (gen_errors g (p_errors p0)) (p_start p0)).
    set (Pf := mk_lr1 pf (gens s ++ [fun _ => GPanic])).
    assert (C1 : canonical (augment (gram s) (sx_start s) ss') (length (gram s)) pf).
    { rewrite Haug, <- Hlen. apply (canonical_ren f h Hf Hh (augment G i0 ss) (length G) p0 pf); auto. apply Hren. }
    assert (Mf : made s Pf ws ss').
    { constructor; try apply M; auto. cbn [Pf pr_gens]. rewrite app_length, augment_len. unfold gens, gram. rewrite !map_length. simpl. lia. }
    exists (mk_lr1 (mk_parser (gram s) ac go (gen_errors g (p_errors p0)) (p_start p0)) (gens s)). split.
    - unfold generated. cbv zeta. cbn [pr_tab]. rewrite Eac. cbn [bind]. rewrite Ego. cbn [bind]. rewrite (gen_rules_real nix tix mi s st Hw Hloop). reflexivity.
    - intros fuel' w. destruct (drop_loop tix s Pf ws ss' Mf w fuel' (ps_init Pf w) (turns_init tix Pf w)) as (A1 & A2 & A3).
      assert (EP : P = mk_lr1 (pr_tab P) (gens s ++ [fun _ => GPanic])) by (rewrite <- (md_gens _ _ _ _ M); destruct P; reflexivity).
      destruct (same_loop tix _ _ pf (pr_tab P) (gens s ++ [fun _ => GPanic]) C1 (md_can _ _ _ _ M) fuel' (ps_init Pf w) (ps_init P w)) as (B1 & B2 & B3).
      { rewrite EP at 2. apply same_init. }
      rewrite <- EP in B1, B2, B3. unfold parse_full, parse_calls, parse_errors. unfold Pf, pf in A1, A2, A3, B1, B2, B3. cbn [pr_tab p_action p_goto p_errors p_start] in A1, A2, A3.
      split; [etransitivity; [exact A1|exact B1]|]. split; [etransitivity; [exact A2|exact B2]|etransitivity; [exact A3|exact B3]].
  Qed.
End Macro.

(** ** C38: the generated parser and the parser of the builder *)
Theorem C38_macro_agrees : forall N T E (nix : N -> nat) (tix : T -> nat) e e' g (mi : minput N T E) (s : syntax N T E) P ws fuel keys p,
  lr_env_ok e -> gen_env_ok g ->
  distinct tix (mi_tokens mi) -> distinct nix (mi_symbols mi) ->
  written nix tix mi s -> makes e' s P ws ->
  expand e fuel mi = Ok (keys, p) ->
  exists P', generated nix tix g mi keys p = Ok P' /\
    forall fuel w, parse_full tix P' fuel w = parse_full tix P fuel w /\
      parse_calls tix P' fuel w = parse_calls tix P fuel w /\ parse_errors tix P' fuel w = parse_errors tix P fuel w.
Proof. intros. eapply macro_main; eauto. Qed.
Print Assumptions C38_macro_agrees.

(** the macro can be expanded exactly when the builder makes a parser *)
Theorem C38_macro_builds : forall N T E (nix : N -> nat) (tix : T -> nat) e e' (mi : minput N T E) (s : syntax N T E),
  lr_env_ok e -> lr_env_ok e' ->
  distinct tix (mi_tokens mi) -> distinct nix (mi_symbols mi) ->
  written nix tix mi s -> (exists r, In r (gram s) /\ r_lhs r = sx_start s) ->
  ((exists fuel kp, expand e fuel mi = Ok kp) <-> (exists P ws, makes e' s P ws)).
Proof.
  intros N T E nix tix e e' mi s He He' Dt Dn Hw Hdef. pose proof (written_api nix tix mi s Hw) as Hapi.
  assert (Hms : exists keys s0, macro_syntax mi = Ok (keys, s0)).
  { pose proof (loop_panic mi (mi_rules mi)) as L. unfold macro_syntax. cbv zeta.
    destruct (foldM (rule_step (name_map token_key_eqb (mi_tokens mi)) (name_map String.eqb (mi_symbols mi))) (mi_rules mi) (mk_ms None [] sb_new)) as [st| |]; [| |contradiction].
    - cbn [bind]. destruct Hw as ((v & Hv & _) & _). destruct (name_map_means String.eqb String.eqb_eq _ _ _ Hv) as (i & -> & _). cbn [of_opt bind]. eauto.
    - exfalso. destruct Hw as (_ & _ & W). destruct L as [(r & rest & Er & Hk)|(r & Hr & Hb)].
      + destruct (W 0 r) as (n & _ & _ & (j & r0 & Hj & Hr0 & Hn & _) & _); [rewrite Er; auto|]. assert (j = 0) by lia. subst j. rewrite Er in Hr0. simpl in Hr0. congruence.
      + apply In_nth_error in Hr as [i Hr]. destruct (W i r Hr) as (n & v & l & Hname & Hv & Hl & _). destruct Hb as [(n' & Hk & Hu)|[(k & Hk & Hu)|(n' & Hk & Hu)]].
        * destruct Hname as (j & r0 & Hj & Hr0 & Hn & Hf). destruct (Nat.eq_dec j i) as [->|Hne].
          -- assert (r0 = r) by congruence. subst r0. assert (n' = n) by congruence. subst n'. apply Hu. apply in_map_iff. exists (n, v). split; auto. apply means_In. auto.
          -- rewrite (Hf i r) in Hk by (auto; lia). discriminate.
        * destruct (Forall2_In_l _ _ _ _ Hl Hk) as (y & _ & Hy). destruct y as [y|y|y]; simpl in Hy; try contradiction. apply Hu. apply in_map_iff. exists (k, y). split; auto. apply means_In. auto.
        * destruct (Forall2_In_l _ _ _ _ Hl Hk) as (y & _ & Hy). destruct y as [y|y|y]; simpl in Hy; try contradiction. apply Hu. apply in_map_iff. exists (n', y). split; auto. apply means_In. auto. }
  destruct Hms as (keys & s0 & Hms). destruct (macro_syntax_ok mi keys s0 Hms) as (st & i0 & Hloop & Hi0 & -> & ->).
  set (G := map cr_rule (ms_rules st)). pose proof (G_eoi mi st Hloop) as Geoi. fold G in Geoi.
  destruct (lr_new_ok e G i0 He Geoi) as (ss & Ess & Hss & F & r & HF & Hr).
  destruct (lr_new_ok e' (gram s) (sx_start s) He' (api_no_eoi nix tix s Hapi)) as (ss' & Ess' & Hss' & F' & r' & HF' & Hr').
  assert (Hin' : In (sx_start s) (nonterminals (gram s))) by (destruct Hdef as (rr & H1 & H2); apply nonterminals_spec; exists rr; auto).
  assert (Hin : In i0 (nonterminals G)) by (apply (both nix tix mi s st i0); auto).
  assert (Hst : i0 = ss <-> sx_start s = ss') by (split; intros E0; exfalso; [rewrite E0 in Hin|rewrite E0 in Hin']; contradiction).
  destruct (renaming nix tix mi s st i0 Hw Hloop Hi0 Dt Dn ss ss' Hss Hss' Hst) as (f & h & Hf & Hh & _ & _ & _ & Haug). fold G in Haug.
  assert (Hlen : length G = length (gram s)) by (unfold G, gram; rewrite !map_length; apply (lens nix tix mi s st Hw Hloop)).
  assert (Hd : dangling (augment (gram s) (sx_start s) ss') (length (gram s)) <-> dangling (augment G i0 ss) (length G)) by (rewrite Haug, <- Hlen; apply dangling_ren; auto).
  assert (EX : forall fuel, expand e fuel mi = do pw <- lr_new e fuel G i0; Ok (ms_keys st, fst pw)).
  { intros fuel. unfold expand. rewrite Hms. cbn [bind fst snd]. unfold lr1_new. cbn [sx_rules sx_start]. fold G. destruct (lr_new e fuel G i0) as [[a b]| |]; reflexivity. }
  split.
  - intros (fuel & kp & Hkp). rewrite EX in Hkp. apply bind_Ok in Hkp as ([a b] & Hab & _). destruct (lr_new_inv e fuel G i0 a b He Geoi Hab) as (ss2 & E2 & _ & _ & Hnd & _). rewrite Ess in E2. injection E2 as <-.
    destruct r' as [[p' w']| |]; [|exfalso; apply Hnd, Hd; exact Hr'|contradiction]. eexists _, _. split; auto. exists F'. unfold lr1_new. change (map cr_rule (sx_rules s)) with (gram s). rewrite HF' by auto. reflexivity.
  - intros (P & ws & _ & fuel & Hf0). unfold lr1_new in Hf0. apply bind_Ok in Hf0 as ([a b] & Hab & _). destruct (lr_new_inv e' fuel (gram s) (sx_start s) a b He' (api_no_eoi nix tix s Hapi) Hab) as (ss2 & E2 & _ & _ & Hnd & _). rewrite Ess' in E2. injection E2 as <-.
    destruct r as [[p' w']| |]; [|exfalso; apply Hnd, Hd; exact Hr|contradiction]. exists F. eexists. rewrite EX, HF by auto. reflexivity.
Qed.
Print Assumptions C38_macro_builds.

(** ** C39: which names are translated, and how *)
Theorem C39_alternatives : forall N T E (nix : N -> nat) (tix : T -> nat) e fuel g (mi : minput N T E) keys p P,
  expand e fuel mi = Ok (keys, p) -> generated nix tix g mi keys p = Ok P ->
  exists s, written nix tix mi s /\ p_rules (pr_tab P) = gram s /\ pr_gens P = gens s.
Proof.
  intros N T E nix tix e fuel g mi keys p P Hx Hg. unfold expand in Hx. apply bind_Ok in Hx as ([ks s0] & Hs0 & Hx). apply bind_Ok in Hx as ([P0 ws0] & _ & Hx). cbn [fst snd] in *. injection Hx as <- <-.
  destruct (macro_syntax_ok _ _ _ Hs0) as (st & i0 & Hloop & Hi0 & -> & ->).
  assert (Hw : exists s, written nix tix mi s).
  { destruct (loop_ok mi _ _ Hloop) as (_ & _ & L & _). destruct (sm_get mi _ _ Hi0) as (v0 & Hv0 & _).
    assert (Hall : exists rules : list (crule N T E), length rules = length (mi_rules mi) /\ forall i r, nth_error (mi_rules mi) i = Some r -> exists n v l,
      rule_name (mi_rules mi) i n /\ means (mi_symbols mi) n v /\ Forall2 (sym_means mi) (bn_rule r) l /\ nth_error rules i = Some (rule_new nix tix v l (bn_gen r))).
    { assert (Hone : forall i r, nth_error (mi_rules mi) i = Some r -> exists n v l, rule_name (mi_rules mi) i n /\ means (mi_symbols mi) n v /\ Forall2 (sym_means mi) (bn_rule r) l).
      { intros i r Hr. destruct (L i r Hr) as (n & idx & items & Hn & Hget & _ & Hit & _). destruct (sm_get mi _ _ Hget) as (v & Hv & _). exists n, v.
        assert (Hl : exists l, Forall2 (sym_means mi) (bn_rule r) l).
        { clear - Hit. induction Hit as [|x y xs ys Hx _ [l IH]]; [exists []; constructor|]. destruct x as [k|m|]; simpl in Hx.
          - apply bind_Ok in Hx as (j & Hj & _). apply of_opt_Ok in Hj. destruct (tm_get mi _ _ Hj) as (t & Ht & _). exists (Terminal t :: l). constructor; auto.
          - apply bind_Ok in Hx as (j & Hj & _). apply of_opt_Ok in Hj. destruct (sm_get mi _ _ Hj) as (t & Ht & _). exists (NonTerminal t :: l). constructor; auto.
          - exists (ErrorSym tt :: l). constructor; simpl; auto. }
        destruct Hl as [l Hl]. exists l. auto. }
      assert (Gen : forall (ps : list (bnf_rule N T E)) b, (forall i r, nth_error ps i = Some r -> nth_error (mi_rules mi) (b + i) = Some r) ->
        exists rules : list (crule N T E), length rules = length ps /\ forall i r, nth_error ps i = Some r -> exists n v l,
          rule_name (mi_rules mi) (b + i) n /\ means (mi_symbols mi) n v /\ Forall2 (sym_means mi) (bn_rule r) l /\ nth_error rules i = Some (rule_new nix tix v l (bn_gen r))).
      { induction ps as [|r ps IH]; intros b Hb; [exists []; split; auto; intros [|i] r H; discriminate|].
        destruct (IH (S b)) as (rules & Hl & Hrules); [intros i r0 H; replace (S b + i) with (b + S i) by lia; apply Hb; auto|].
        destruct (Hone (b + 0) r (Hb 0 r eq_refl)) as (n & v & l & H1 & H2 & H3). exists (rule_new nix tix v l (bn_gen r) :: rules). split; [simpl; lia|].
        intros [|i] r0 Hr0; simpl in Hr0; [injection Hr0 as <-; exists n, v, l; auto|]. destruct (Hrules i r0 Hr0) as (n' & v' & l' & A1 & A2 & A3 & A4). exists n', v', l'. replace (b + S i) with (S b + i) by lia. auto. }
      destruct (Gen (mi_rules mi) 0) as (rules & A & B); [auto|]. exists rules. auto. }
    destruct Hall as (rules & A & B). exists (mk_syntax rules (nix v0)). split; [exists v0; auto|]. auto. }
  destruct Hw as [s Hw]. exists s. split; auto. unfold generated in Hg. cbv zeta in Hg. apply bind_Ok in Hg as (ac & _ & Hg). apply bind_Ok in Hg as (go & _ & Hg).
  rewrite (gen_rules_real nix tix mi s st Hw Hloop) in Hg. cbn [bind] in Hg. injection Hg as <-. split; reflexivity.
Qed.
Print Assumptions C39_alternatives.

(** a name that is the start symbol or occurs in a rule but has no rules *)
Definition undefined_name {N T E} (mi : minput N T E) (n : string) : Prop :=
  (mi_start mi = n \/ exists r, In r (mi_rules mi) /\ In (BNonTerminal n) (bn_rule r)) /\ forall i, ~ rule_name (mi_rules mi) i n.

Lemma insert_total {K K' V V'} (keq' : K' -> K' -> bool) (kf : K -> res K') (vf : V -> res V') l : forall m0,
  (forall k v, In (k, v) l -> (exists k', kf k = Ok k') /\ exists v', vf v = Ok v') -> exists m, foldM (insert_step keq' kf vf) l m0 = Ok m.
Proof.
  induction l as [|[k v] l IH]; intros m0 H; [simpl; eauto|]. destruct (H k v (or_introl eq_refl)) as ([k' Hk] & v' & Hv).
  cbn [foldM]. unfold insert_step at 1. cbn [fst snd]. rewrite Hk, Hv. cbn [bind]. apply IH. intros k0 v0 H0. apply H. right. auto.
Qed.

Theorem C39_panics : forall N T E (nix : N -> nat) (tix : T -> nat) e g (mi : minput N T E), lr_env_ok e -> gen_env_ok g ->
  (bad_name mi -> forall fuel, expand e fuel mi = Panic) /\
  (~ bad_name mi -> exists F,
     (exists keys p, (forall fuel, F <= fuel -> expand e fuel mi = Ok (keys, p)) /\ exists P, generated nix tix g mi keys p = Ok P) \/
     ((forall fuel, F <= fuel -> expand e fuel mi = Panic) /\ exists n, undefined_name mi n)).
Proof.
  intros N T E nix tix e g mi He Hg. split.
  - intros Hb fuel. assert (Hm : macro_syntax mi = Panic).
    { unfold macro_syntax. cbv zeta. pose proof (loop_panic mi (mi_rules mi)) as L. pose proof (loop_good mi (mi_rules mi)) as L'.
      destruct (foldM (rule_step (name_map token_key_eqb (mi_tokens mi)) (name_map String.eqb (mi_symbols mi))) (mi_rules mi) (mk_ms None [] sb_new)) as [st| |]; [|reflexivity|contradiction].
      cbn [bind]. destruct Hb as [Hb|Hb]; [|exfalso; apply (L' st eq_refl); exact Hb].
      destruct (aget String.eqb (mi_start mi) (name_map String.eqb (mi_symbols mi))) as [i|] eqn:Ei; [|reflexivity].
      exfalso. destruct (sm_get mi _ _ Ei) as (v & Hv & _). apply Hb. apply in_map_iff. exists (mi_start mi, v). split; auto. apply means_In. auto. }
    unfold expand. rewrite Hm. reflexivity.
  - intros Hb.
    assert (Hms : exists st i0, foldM (rule_step (name_map token_key_eqb (mi_tokens mi)) (name_map String.eqb (mi_symbols mi))) (mi_rules mi) (mk_ms None [] sb_new) = Ok st /\ aget String.eqb (mi_start mi) (name_map String.eqb (mi_symbols mi)) = Some i0).
    { pose proof (loop_panic mi (mi_rules mi)) as L.
      destruct (foldM (rule_step (name_map token_key_eqb (mi_tokens mi)) (name_map String.eqb (mi_symbols mi))) (mi_rules mi) (mk_ms None [] sb_new)) as [st| |]; [|exfalso; apply Hb; right; exact L|contradiction].
      destruct (aget String.eqb (mi_start mi) (name_map String.eqb (mi_symbols mi))) as [i|] eqn:Ei; [eauto|]. exfalso. apply Hb. left. apply sm_none. auto. }
    destruct Hms as (st & i0 & Hloop & Hi0).
    set (G := map cr_rule (ms_rules st)). pose proof (G_eoi mi st Hloop) as Geoi. fold G in Geoi.
    destruct (lr_new_ok e G i0 He Geoi) as (ss & Ess & Hss & F & r & HF & Hr).
    assert (EX : forall fuel, expand e fuel mi = do pw <- lr_new e fuel G i0; Ok (ms_keys st, fst pw)).
    { intros fuel. unfold expand, macro_syntax. cbv zeta. rewrite Hloop. cbn [bind]. rewrite Hi0. cbn [of_opt bind fst snd]. unfold lr1_new, sb_build. cbn [sx_rules sx_start]. fold G. destruct (lr_new e fuel G i0) as [[a b]| |]; reflexivity. }
    exists F. destruct r as [[p w]| |]; [left|right|contradiction].
    + exists (ms_keys st), p. split; [intros fuel Hf; rewrite EX, HF by auto; reflexivity|]. destruct Hr as (C & _).
      assert (Hex : expand e F mi = Ok (ms_keys st, p)) by (rewrite EX, HF by auto; reflexivity).
      set (tokens := map (fun kv => tix (snd kv)) (mi_tokens mi)). set (symbols := map (fun kv => nix (snd kv)) (mi_symbols mi)).
      assert (Hterm : forall t, occurs G t \/ t = TEoi -> exists t', gen_term tokens t = Ok t').
      { intros t Ht. destruct t as [t| |]; simpl; eauto. destruct Ht as [Ht|Ht]; [|discriminate]. destruct (G_tok mi st Hloop t Ht) as [k Hk]. destruct (tm_get mi _ _ Hk) as (x & Hx & _).
        destruct (tok_val tix mi _ _ _ Hk Hx) as [A _]. unfold tokens. rewrite A. simpl. eauto. }
      assert (Hnt : forall a, In a (nonterminals G) \/ a = i0 -> exists a', of_opt (nth_error symbols a) = Ok a').
      { intros a Ha. assert (Hk : exists k, aget String.eqb k (name_map String.eqb (mi_symbols mi)) = Some a) by (destruct Ha as [Ha| ->]; [apply (G_nt mi st Hloop); auto|eauto]). destruct Hk as [k Hk].
        destruct (sm_get mi _ _ Hk) as (x & Hx & _). destruct (sym_val nix mi _ _ _ Hk Hx) as [A _]. unfold symbols. rewrite A. simpl. eauto. }
      assert (Hocc : forall t, occurs (augment G i0 ss) t -> occurs G t).
      { intros t (rr & Hrr & Ht). unfold augment in Hrr. apply in_app_iff in Hrr as [Hrr|[<-|[]]]; [exists rr; auto|]. simpl in Ht. destruct Ht as [Ht|[]]. discriminate. }
      destruct Hg as (W1 & W2 & W3 & W4 & _ & _).
      assert (Ha : exists ac, gen_action g tokens (p_action p) = Ok ac).
      { apply (insert_total eqb (@Ok nat) (gen_action_row g tokens)). intros q row Hin. split; [eauto|]. destruct (W1 (p_action p)) as [Nd1 Wa1].
        assert (Hrow : aget eqb q (p_action p) = Some row) by (rewrite <- Wa1; apply (aget_NoDup eqb eqb_eq); auto). destruct (can_reached _ _ _ C _ _ Hrow) as [gg Hgg].
        apply (insert_total eqb (gen_term tokens) (@Ok (action nat))). intros t a Hin2. split; [|eauto]. destruct (W2 row) as [Nd2 Wa2]. apply Hterm.
        assert (Hat : aget eqb t row = Some a) by (rewrite <- Wa2; apply (aget_NoDup eqb eqb_eq); auto). destruct (row_keys _ _ _ _ _ _ _ _ C Hgg Hrow Hat) as [->|H]; auto. }
      assert (Hgo : exists go, gen_goto g symbols (p_goto p) = Ok go).
      { apply (insert_total eqb (@Ok nat) (gen_goto_row g symbols)). intros q row Hin. split; [eauto|]. destruct (W3 (p_goto p)) as [Nd3 Wa3].
        assert (Hrow : aget eqb q (p_goto p) = Some row) by (rewrite <- Wa3; apply (aget_NoDup eqb eqb_eq); auto). destruct (can_goto_reached _ _ _ C _ _ Hrow) as [gg Hgg].
        apply (insert_total eqb (fun k => of_opt (nth_error symbols k)) (@Ok nat)). intros t a Hin2. split; [|eauto]. destruct (W4 row) as [Nd4 Wa4]. apply Hnt.
        assert (Hat : aget eqb t row = Some a) by (rewrite <- Wa4; apply (aget_NoDup eqb eqb_eq); auto). destruct (goto_keys _ _ _ _ _ _ _ _ C Hgg Hrow Hat) as (rr & Hrr & Hin3).
        unfold augment in Hrr. apply in_app_iff in Hrr as [Hrr|[<-|[]]]; [left; apply nonterminals_spec; exists rr; auto|]. simpl in Hin3. destruct Hin3 as [Hin3|[]]. right. congruence. }
      destruct Ha as [ac Ha]. destruct Hgo as [go Hgo]. fold tokens in Ha.
      assert (Hrules : exists rules, mapM (gen_rule (N := N) (T := T) (E := E) (name_map token_key_eqb (mi_tokens mi)) (name_map String.eqb (mi_symbols mi)) tokens symbols (ms_keys st)) (combine (seq 0 (length (mi_rules mi))) (mi_rules mi)) = Ok rules).
      { destruct (loop_ok mi _ _ Hloop) as (_ & _ & L & _).
        assert (Hall : forall ir, In ir (combine (seq 0 (length (mi_rules mi))) (mi_rules mi)) -> exists c, gen_rule (N := N) (T := T) (E := E) (name_map token_key_eqb (mi_tokens mi)) (name_map String.eqb (mi_symbols mi)) tokens symbols (ms_keys st) ir = Ok c).
        { intros [i rr] Hin. assert (Hrr : nth_error (mi_rules mi) i = Some rr).
          { assert (Gen : forall (l : list (bnf_rule N T E)) b, In (i, rr) (combine (seq b (length l)) l) -> b <= i /\ nth_error l (i - b) = Some rr).
            { induction l as [|x l IH]; intros b H; [destruct H|]. simpl in H. destruct H as [H|H]; [injection H as -> ->; rewrite Nat.sub_diag; auto|].
              destruct (IH (S b) H) as [H1 H2]. split; [lia|]. replace (i - b) with (S (i - S b)) by lia. auto. }
            destruct (Gen _ _ Hin) as [_ H]. rewrite Nat.sub_0_r in H. auto. }
          destruct (L i rr Hrr) as (n & idx & items & _ & Hget & Hk & Hit & _). unfold gen_rule. cbn [fst snd]. rewrite Hk. cbn [of_opt bind].
          destruct (sm_get mi _ _ Hget) as (v & Hv & _). destruct (sym_val nix mi _ _ _ Hget Hv) as [A _]. unfold symbols at 1. rewrite A. cbn [of_opt bind].
          assert (Hitems : exists ys, mapM (gen_item (name_map token_key_eqb (mi_tokens mi)) (name_map String.eqb (mi_symbols mi)) tokens symbols) (bn_rule rr) = Ok ys).
          { clear Hrr Hin. revert items Hit. induction (bn_rule rr) as [|x l IH]; intros items Hit; [simpl; eauto|]. inversion Hit as [|? y ? ys Hx Hxs]; subst. destruct (IH _ Hxs) as [zs Hzs]. cbn [mapM]. rewrite Hzs.
            destruct x as [k|m|]; simpl in Hx |- *.
            - apply bind_Ok in Hx as (j & Hj & _). apply of_opt_Ok in Hj. destruct (tm_get mi _ _ Hj) as (t & Ht & _). destruct (tok_val tix mi _ _ _ Hj Ht) as [B _]. rewrite Hj. cbn [of_opt bind]. unfold tokens. rewrite B. simpl. eauto.
            - apply bind_Ok in Hx as (j & Hj & _). apply of_opt_Ok in Hj. destruct (sm_get mi _ _ Hj) as (t & Ht & _). destruct (sym_val nix mi _ _ _ Hj Ht) as [B _]. rewrite Hj. cbn [of_opt bind]. unfold symbols. rewrite B. simpl. eauto.
            - eauto. }
          destruct Hitems as [ys ->]. cbn [bind]. eauto. }
        clear - Hall. induction (combine (seq 0 (length (mi_rules mi))) (mi_rules mi)) as [|x l IH]; [simpl; eauto|]. destruct (Hall x (or_introl eq_refl)) as [c Hc]. destruct IH as [cs Hcs]; [intros ir H; apply Hall; right; auto|].
        cbn [mapM]. rewrite Hc, Hcs. simpl. eauto. }
      destruct Hrules as [rules Hrules]. eexists. unfold generated. cbv zeta. fold tokens symbols. rewrite Ha. cbn [bind]. rewrite Hgo. cbn [bind]. rewrite Hrules. reflexivity.
    + split; [intros fuel Hf; rewrite EX, HF by auto; reflexivity|].
      destruct Hr as (gg & k & q & la & rr & A & t & _ & Hrr & HA & Hno & _).
      assert (HA' : (A = i0 \/ exists r0, In r0 G /\ In (NT A) (r_rhs r0)) /\ forall r0, In r0 G -> r_lhs r0 <> A).
      { split; [|intros r0 H0; apply Hno; apply in_app_iff; auto]. apply nth_error_In in Hrr. apply in_app_or in Hrr as [Hrr|[<-|[]]]; [right; exists rr; split; auto; eapply nth_error_In; eauto|].
        left. destruct q as [|q]; simpl in HA; [congruence|destruct q; discriminate]. }
      destruct HA' as [Hocc Hnone]. destruct (loop_ok mi _ _ Hloop) as (_ & L0 & L & _).
      assert (Hn : exists n, aget String.eqb n (name_map String.eqb (mi_symbols mi)) = Some A /\ (mi_start mi = n \/ exists r0, In r0 (mi_rules mi) /\ In (BNonTerminal n) (bn_rule r0))).
      { destruct Hocc as [->|(r0 & Hr0 & Hin)]; [exists (mi_start mi); auto|]. unfold G in Hr0. apply in_map_iff in Hr0 as (c & <- & Hc). apply In_nth_error in Hc as [i Hc].
        destruct (nth_error (mi_rules mi) i) as [r1|] eqn:Er1; [|apply nth_error_None in Er1; assert (i < length (ms_rules st)) by (apply nth_error_Some; congruence); lia].
        destruct (L i r1 Er1) as (n & idx & items & _ & _ & _ & Hit & Hrule). rewrite Hc in Hrule. injection Hrule as ->. simpl in Hin. apply in_map_iff in Hin as (y & Hy & Hin).
        destruct (Forall2_In_r _ _ _ _ Hit Hin) as (x & Hx & Hxy). destruct y as [y|y|y]; simpl in Hy; try discriminate. injection Hy as ->.
        destruct x as [k0|m|]; simpl in Hxy; try discriminate; apply bind_Ok in Hxy as (j & Hj & Hxy); try discriminate. injection Hxy as ->. apply of_opt_Ok in Hj. exists m. split; auto. right. exists r1. split; auto. eapply nth_error_In; eauto. }
      destruct Hn as (n & Hget & Hn). exists n. split; auto. intros i (j & r0 & Hj & Hr0 & Hk & _).
      destruct (L j r0 Hr0) as (n' & idx & items & Hn' & Hget' & _ & _ & Hrule).
      assert (E0 : n' = n) by (apply (rule_name_fun (mi_rules mi) j n' n Hn'); exists j, r0; split; auto; split; auto; split; auto; intros; lia). subst n'. rewrite Hget in Hget'. injection Hget' as <-.
      apply (Hnone (mk_rule A (map to_sym items))); auto. unfold G. apply in_map_iff. eexists. split; [|eapply nth_error_In; exact Hrule]. reflexivity.
Qed.
Print Assumptions C39_panics.

(** ** Examples *)
Section Walks.
  Context {K V : Type} (keq : K -> K -> bool) (Hkeq : forall a b, keq a b = true <-> a = b).
  Fixpoint once (m : list (K * V)) : list (K * V) :=
    match m with [] => [] | (k, v) :: m => (k, v) :: filter (fun kv => negb (keq k (fst kv))) (once m) end.
  Lemma once_get m k : aget keq k (once m) = aget keq k m.
  Proof.
    induction m as [|[k0 v0] m IH]; [reflexivity|]. cbn [once aget]. destruct (keq k k0) eqn:E0; [reflexivity|]. rewrite <- IH. clear IH.
    induction (once m) as [|[k1 v1] l IH]; [reflexivity|]. cbn [filter fst]. destruct (keq k0 k1) eqn:E1; cbn [negb aget].
    - apply Hkeq in E1. subst k1. rewrite E0. auto.
    - destruct (keq k k1); auto.
  Qed.
  Lemma once_filter q (m : list (K * V)) : NoDup (map fst m) -> NoDup (map fst (filter q m)).
  Proof.
    induction m as [|[k v] m IH]; intros H; [constructor|]. inversion H; subst. cbn [filter]. destruct (q (k, v)); auto. cbn [map]. constructor; auto.
    intros Hin. apply H2. apply in_map_iff in Hin as ([a b] & Ha & Hb). apply filter_In in Hb as [Hb _]. apply in_map_iff. exists (a, b). auto.
  Qed.
  Lemma once_nodup m : NoDup (map fst (once m)).
  Proof.
    induction m as [|[k v] m IH]; [constructor|]. cbn [once map]. constructor; [|apply once_filter; auto]. intros Hin. apply in_map_iff in Hin as ([a b] & Ha & Hb).
    apply filter_In in Hb as [_ Hb]. simpl in Ha, Hb. subst a. assert (E0 : keq k k = true) by (apply Hkeq; auto). rewrite E0 in Hb. discriminate.
  Qed.
  Lemma once_walks m : walks keq m (once m).
  Proof. split; [apply once_nodup|intros; apply once_get]. Qed.
  Lemma once_rev_walks m : walks keq m (rev (once m)).
  Proof.
    split; [rewrite map_rev; apply NoDup_rev, once_nodup|]. intros k. rewrite <- (once_get m k). destruct (aget keq k (once m)) as [v|] eqn:E0.
    - apply (aget_NoDup keq Hkeq); [rewrite map_rev; apply NoDup_rev, once_nodup|]. apply in_rev. rewrite rev_involutive. eapply aget_In; eauto.
    - destruct (aget keq k (rev (once m))) as [v|] eqn:E1; auto. exfalso. apply (aget_In keq Hkeq) in E1. apply in_rev in E1. apply (aget_NoDup keq Hkeq) in E1; [congruence|apply once_nodup].
  Qed.
End Walks.
Definition genv0 : gen_env := mk_gen_env (once eqb) (once eqb) (once eqb) (once eqb) (once eqb) (fun l => l).
Definition genv1 : gen_env := mk_gen_env (fun m => rev (once eqb m)) (fun m => rev (once eqb m)) (once eqb) (fun m => rev (once eqb m)) (once eqb) (@rev _).
Example genv0_ok : gen_env_ok genv0.
Proof. repeat (split; [intros m; apply once_walks; apply eqb_eq|]). simpl. tauto. Qed.
Example genv1_ok : gen_env_ok genv1.
Proof.
  split; [intros; apply once_rev_walks; apply eqb_eq|]. split; [intros; apply once_rev_walks; apply eqb_eq|]. split; [intros; apply once_walks; apply eqb_eq|].
  split; [intros; apply once_rev_walks; apply eqb_eq|]. split; [intros; apply once_walks; apply eqb_eq|]. simpl. intros. symmetry. apply in_rev.
Qed.

Local Open Scope string_scope.
(** [expr] as macro input; the names are listed in another order than the enum variants *)
Definition mi_expr : minput nat tk nat := mk_minput
  [(KRaw "(", (kL, 0)); (KNamed "id", (kId, 0)); (KRaw ")", (kR, 0)); (KRaw "+", (kPlus, 0))]
  [("T", nT); ("E", nE)] "E"
  [mk_bnf (Named "E") [BNonTerminal "E"; BTerminal (KRaw "+"); BNonTerminal "T"] r_sum;
   mk_bnf Follow [BNonTerminal "T"] r_one;
   mk_bnf (Named "T") [BTerminal (KRaw "("); BNonTerminal "E"; BTerminal (KRaw ")")] r_paren;
   mk_bnf Follow [BTerminal (KNamed "id")] r_id].

Example mi_expr_distinct : distinct tkix (mi_tokens mi_expr) /\ distinct nix0 (mi_symbols mi_expr).
Proof. split; intros k v k' v' H H' E0; simpl in H, H';
    repeat (destruct H as [H|H]; [injection H as <- <-|]); try contradiction; repeat (destruct H' as [H'|H']; [injection H' as <- <-|]); try contradiction; try reflexivity; discriminate. Qed.
Example mi_expr_written : written nix0 tkix mi_expr expr.
Proof.
  assert (Mt : forall k i v, nth_error (mi_tokens mi_expr) i = Some (k, v) -> means (mi_tokens mi_expr) k v).
  { intros k i v H. exists (firstn i (mi_tokens mi_expr)), (skipn (S i) (mi_tokens mi_expr)). do 4 (destruct i as [|i]; [injection H as <- <-; split; [reflexivity|unfold unknown; simpl; intuition discriminate]|]). destruct i; discriminate. }
  assert (Ms : forall k i v, nth_error (mi_symbols mi_expr) i = Some (k, v) -> means (mi_symbols mi_expr) k v).
  { intros k i v H. exists (firstn i (mi_symbols mi_expr)), (skipn (S i) (mi_symbols mi_expr)). do 2 (destruct i as [|i]; [injection H as <- <-; split; [reflexivity|unfold unknown; simpl; intuition discriminate]|]). destruct i; discriminate. }
  split; [exists nE; split; [apply (Ms _ 1); reflexivity|reflexivity]|]. split; [reflexivity|]. intros i r Hr.
  destruct i as [|[|[|[|i]]]]; simpl in Hr; try (destruct i; discriminate); injection Hr as <-.
  - exists "E", nE, [NonTerminal nE; Terminal (kPlus, 0); NonTerminal nT]. split; [eexists 0, _; split; [lia|]; split; [reflexivity|]; split; [reflexivity|intros; lia]|]. split; [apply (Ms _ 1); reflexivity|].
    split; [repeat constructor; simpl; [apply (Ms _ 1)|apply (Mt _ 3)|apply (Ms _ 0)]; reflexivity|reflexivity].
  - exists "E", nE, [NonTerminal nT]. split; [eexists 0, _; split; [lia|]; split; [reflexivity|]; split; [reflexivity|intros k r' Hk; assert (k = 1) as -> by lia; intros [= <-]; reflexivity]|]. split; [apply (Ms _ 1); reflexivity|].
    split; [repeat constructor; simpl; apply (Ms _ 0); reflexivity|reflexivity].
  - exists "T", nT, [Terminal (kL, 0); NonTerminal nE; Terminal (kR, 0)]. split; [eexists 2, _; split; [lia|]; split; [reflexivity|]; split; [reflexivity|intros; lia]|]. split; [apply (Ms _ 0); reflexivity|].
    split; [repeat constructor; simpl; [apply (Mt _ 0)|apply (Ms _ 1)|apply (Mt _ 2)]; reflexivity|reflexivity].
  - exists "T", nT, [Terminal (kId, 0)]. split; [eexists 2, _; split; [lia|]; split; [reflexivity|]; split; [reflexivity|intros k r' Hk; assert (k = 3) as -> by lia; intros [= <-]; reflexivity]|]. split; [apply (Ms _ 0); reflexivity|].
    split; [repeat constructor; simpl; apply (Mt _ 1); reflexivity|reflexivity].
Qed.
Definition P_macro : prs :=
  match expand env1 100 mi_expr with Ok (keys, p) => match generated nix0 tkix genv1 mi_expr keys p with Ok P => P | _ => P_expr end | _ => P_expr end.
(** the macro's parser on the running example and on a wrong input *)
Example C38_run : (exists keys p, expand env1 100 mi_expr = Ok (keys, p) /\ generated nix0 tkix genv1 mi_expr keys p = Ok P_macro) /\
  parse_full tkix P_macro 100 w_expr = Ok (ROk 6, []) /\ parse_full tkix P_macro 100 w_bad = parse_full tkix P_expr 100 w_bad /\ p_rules (pr_tab P_macro) = gram expr.
Proof. split; [eexists _, _; split; vm_compute; reflexivity|]. repeat split; vm_compute; reflexivity. Qed.
Example C38_start_has_rule : exists r, In r (gram expr) /\ r_lhs r = sx_start expr.
Proof. eexists. split; [left; reflexivity|reflexivity]. Qed.

(** [distinct] is needed: two names for the same variant make a table in which one entry overwrites the other *)
Definition mi_alias : minput nat tk nat := mk_minput
  [(KNamed "id", (kId, 0)); (KNamed "name", (kId, 0)); (KRaw "+", (kPlus, 0))]
  [("E", nE)] "E"
  [mk_bnf (Named "E") [BTerminal (KNamed "id")] r_id; mk_bnf Follow [BTerminal (KNamed "name"); BTerminal (KRaw "+")] (fun l => match l with [Terminal x; _] => GOk (snd x) | _ => GPanic end)].
Definition alias : stx := mk_syntax
  [rule_new_raw nE [TM' kId] r_id; rule_new_raw nE [TM' kId; TM' kPlus] (fun l => match l with [Terminal x; _] => GOk (snd x) | _ => GPanic end)] nE.
Example alias_differs :
  exists keys p P', expand env0 100 mi_alias = Ok (keys, p) /\ generated nix0 tkix genv0 mi_alias keys p = Ok P' /\
    p_rules (pr_tab P') = gram alias /\ makes env0 alias (fst (build env0 alias)) [] /\
    exists w, parse_full tkix P' 100 w <> parse_full tkix (fst (build env0 alias)) 100 w.
Proof.
  eexists _, _, _. split; [vm_compute; reflexivity|]. split; [vm_compute; reflexivity|]. split; [reflexivity|]. split; [apply (build_makes env0 alias env0_ok); vm_compute; reflexivity|].
  exists [(kId, 5)]. vm_compute. discriminate.
Qed.

(** names that cannot be translated, and a symbol without rules *)
Definition mi_leading : minput nat tk nat := mk_minput (mi_tokens mi_expr) (mi_symbols mi_expr) "E" [mk_bnf Follow [BTerminal (KNamed "id")] r_id].
Example C39_leading : bad_name mi_leading.
Proof. right. left. eexists _, _. split; reflexivity. Qed.
Definition mi_raw : minput nat tk nat := mk_minput (mi_tokens mi_expr) (mi_symbols mi_expr) "E" [mk_bnf (Named "E") [BTerminal (KRaw "id")] r_id].
Example C39_raw : bad_name mi_raw.
Proof. right. right. eexists. split; [left; reflexivity|]. right. left. exists (KRaw "id"). split; [left; reflexivity|]. unfold unknown. simpl. intuition discriminate. Qed.
Definition mi_norule : minput nat tk nat := mk_minput (mi_tokens mi_expr) (mi_symbols mi_expr) "E" [mk_bnf (Named "E") [BNonTerminal "T"; BTerminal (KRaw "+")] r_id].
Example C39_norule : ~ bad_name mi_norule /\ expand env0 100 mi_norule = Panic /\ undefined_name mi_norule "T".
Proof.
  split; [|split; [vm_compute; reflexivity|]].
  - intros [H|[(r & rest & Hr & Hk)|(r & Hr & H)]].
    + apply H. simpl. auto.
    + injection Hr as <- _. discriminate.
    + destruct Hr as [<-|[]]. destruct H as [(n & Hn & Hu)|[(k & Hk & Hu)|(n & Hn & Hu)]].
      * injection Hn as <-. apply Hu. simpl. auto.
      * simpl in Hk. apply Hu. destruct Hk as [Hk|[Hk|[]]]; try discriminate. injection Hk as <-. simpl. auto.
      * simpl in Hn. apply Hu. destruct Hn as [Hn|[Hn|[]]]; try discriminate. injection Hn as <-. simpl. auto.
  - split; [right; eexists; split; [left; reflexivity|left; reflexivity]|]. intros i (j & r & _ & Hr & Hn & _). destruct j as [|[|j]]; try discriminate. injection Hr as <-. discriminate.
Qed.
Example C39_expr : ~ bad_name mi_expr.
Proof.
  intros H. assert (E0 : expand env0 100 mi_expr = Panic) by (apply (proj1 (C39_panics nat tk nat nix0 tkix env0 genv0 mi_expr env0_ok genv0_ok) H)). vm_compute in E0. discriminate.
Qed.
