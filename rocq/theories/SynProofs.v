(** * The readers of the macros agree with the notation of [SynSpec]. *)
From Coq Require Import List Arith Bool String Ascii Lia.
From Verif Require Import Lib GenModel SynModel SynSpec.
Import ListNotations.
Local Notation length := List.length.
Open Scope char_scope.

Lemma bind_ok : forall A B (p : parsing A) (f : A -> parsing B) ts b r,
  pbind p f ts = POk b r <-> exists a r', p ts = POk a r' /\ f a r' = POk b r.
Proof.
  intros A B p f ts b r. unfold pbind. destruct (p ts) as [a r'| | |].
  - split; [ intros H; exists a, r'; auto | intros (a' & r'' & E & H); congruence ].
  - split; [ discriminate | intros (a' & r'' & E & H); congruence ].
  - split; [ discriminate | intros (a' & r'' & E & H); congruence ].
  - split; [ discriminate | intros (a' & r'' & E & H); congruence ].
Qed.
Lemma word_ok : forall w ts u r, p_word w ts = POk u r <-> ts = TIdent w :: r.
Proof.
  intros w ts [] r. unfold p_word. split.
  - destruct ts as [|[s| | | |] ts]; try discriminate. destruct (String.eqb_spec s w) as [->|]; [ intros E; inversion E; reflexivity | discriminate ].
  - intros ->. rewrite String.eqb_refl. reflexivity.
Qed.
Lemma ident_ok : forall kw ts s r, p_ident kw ts = POk s r <-> ts = TIdent s :: r /\ kw s = false.
Proof.
  intros kw ts s r. unfold p_ident. split.
  - destruct ts as [|[s'| | | |] ts]; try discriminate. destruct (kw s') eqn:K; [ discriminate | intros E; inversion E; subst; auto ].
  - intros (-> & ->). reflexivity.
Qed.
Lemma str_ok : forall ts s r, p_str ts = POk s r <-> ts = TStr s :: r.
Proof.
  intros ts s r. unfold p_str. split.
  - destruct ts as [|[| |s'| |] ts]; try discriminate. intros E; inversion E; reflexivity.
  - intros ->. reflexivity.
Qed.
Lemma punct1_ok : forall c ts u r, p_punct [c] ts = POk u r <-> exists j, ts = TPunct c j :: r.
Proof.
  intros c ts [] r. cbn. split.
  - destruct ts as [|[|c' j| | |] ts]; try discriminate. destruct (Ascii.eqb_spec c c') as [->|]; [ intros E; inversion E; eauto | discriminate ].
  - intros (j & ->). rewrite Ascii.eqb_refl. reflexivity.
Qed.
Lemma punct2_ok : forall c d ts u r, p_punct [c; d] ts = POk u r <-> exists j, ts = TPunct c true :: TPunct d j :: r.
Proof.
  intros c d ts [] r. split.
  - cbn. destruct ts as [|[|c' [|]| | |] ts]; try discriminate. destruct (Ascii.eqb_spec c c') as [->|]; [ | discriminate ].
    destruct ts as [|[|d' j| | |] ts]; try discriminate. destruct (Ascii.eqb_spec d d') as [->|]; [ intros E; inversion E; eauto | discriminate ].
  - intros (j & ->). cbn. rewrite !Ascii.eqb_refl. reflexivity.
Qed.
Lemma peek1_ok : forall c ts, peek_punct [c] ts = true <-> exists j r, ts = TPunct c j :: r.
Proof.
  intros c ts. unfold peek_punct. split.
  - destruct (p_punct [c] ts) as [u r| | |] eqn:E; try discriminate. intros _. apply punct1_ok in E. destruct E as (j & ->). eauto.
  - intros (j & r & ->). cbn. rewrite Ascii.eqb_refl. reflexivity.
Qed.
Lemma group_ok : forall A d (p : parsing A) ts a r, p_group d p ts = POk a r <-> exists us, ts = TGroup d us :: r /\ p us = POk a [].
Proof.
  intros A d p ts a r. unfold p_group. split.
  - destruct ts as [|[| | | |d' us] ts]; try discriminate. destruct (delim_eqb d d') eqn:D; [ | discriminate ].
    assert (d = d') as <- by (destruct d, d'; congruence || discriminate).
    destruct (p us) as [a' [|]| | |] eqn:P; try discriminate. intros E; inversion E; subst. eauto.
  - intros (us & -> & P). assert (delim_eqb d d = true) as -> by (destruct d; reflexivity). rewrite P. reflexivity.
Qed.
Lemma sub_ok : forall A (p : list ttree -> option (A * list ttree)) ts a r, p_sub p ts = POk a r <-> p ts = Some (a, r).
Proof.
  intros A p ts a r. unfold p_sub. destruct (p ts) as [[a' r']|]; split; intros E; try discriminate; inversion E; reflexivity.
Qed.
Lemma ret_ok : forall A (a b : A) ts r, pret a ts = POk b r <-> a = b /\ ts = r.
Proof. intros A a b ts r. unfold pret. split; [ intros E; inversion E; auto | intros (-> & ->); reflexivity ]. Qed.

(** ** Outcomes other than results *)
Definition safe {A} (p : parsing A) : Prop := forall ts, p ts <> PFuel /\ p ts <> PPanic.
Definition fuelled {A} (p : parsing A) : Prop := forall ts, p ts <> PFuel.
Definition shorter {A} (p : parsing A) : Prop := forall ts a r, p ts = POk a r -> length r < length ts.
Definition no_longer {A} (p : parsing A) : Prop := forall ts a r, p ts = POk a r -> length r <= length ts.

Lemma safe_bind : forall A B (p : parsing A) (f : A -> parsing B), safe p -> (forall a, safe (f a)) -> safe (pbind p f).
Proof.
  intros A B p f Hp Hf ts. unfold pbind. destruct (Hp ts) as (P1 & P2). destruct (p ts) as [a r| | |]; [ apply Hf | split; discriminate | congruence | congruence ].
Qed.
Lemma bind_at : forall A B (p : parsing A) (f : A -> parsing B) ts, p ts <> PFuel /\ p ts <> PPanic ->
  (forall a r, p ts = POk a r -> f a r <> PFuel /\ f a r <> PPanic) -> pbind p f ts <> PFuel /\ pbind p f ts <> PPanic.
Proof. intros A B p f ts (P1 & P2) H. unfold pbind. destruct (p ts) as [a r| | |]; [ apply H; reflexivity | split; discriminate | congruence | congruence ]. Qed.
Lemma bind_pok : forall A B (p : parsing A) (f : A -> parsing B) ts a r, p ts = POk a r -> pbind p f ts = f a r.
Proof. intros A B p f ts a r E. unfold pbind. rewrite E. reflexivity. Qed.
Lemma bind_perr : forall A B (p : parsing A) (f : A -> parsing B) ts, p ts = PErr -> pbind p f ts = PErr.
Proof. intros A B p f ts E. unfold pbind. rewrite E. reflexivity. Qed.
Lemma safe_ret : forall A (a : A), safe (pret a). Proof. intros A a ts. split; discriminate. Qed.
Lemma safe_word : forall w, safe (p_word w).
Proof. intros w [|[s| | | |] rr]; cbn; try (split; discriminate). destruct (String.eqb s w); split; discriminate. Qed.
Lemma safe_ident : forall kw, safe (p_ident kw).
Proof. intros kw [|[s| | | |] rr]; cbn; try (split; discriminate). destruct (kw s); split; discriminate. Qed.
Lemma safe_str : safe p_str. Proof. intros [|[s| | | |] rr]; cbn; split; discriminate. Qed.
Lemma safe_punct : forall cs, safe (p_punct cs).
Proof.
  induction cs as [|c cs IH]; intros ts; [ cbn; split; discriminate | ].
  destruct cs as [|d cs].
  - cbn. destruct ts as [|[|c' j| | |] ts]; try (split; discriminate). destruct (Ascii.eqb c c'); split; discriminate.
  - cbn [p_punct]. destruct ts as [|[|c' [|]| | |] ts]; try (split; discriminate). destruct (Ascii.eqb c c'); [ apply IH | split; discriminate ].
Qed.
Lemma safe_group : forall A d (p : parsing A), safe p -> safe (p_group d p).
Proof.
  intros A d p Hp [|[| | | |d' us] rr]; cbn; try (split; discriminate). destruct (delim_eqb d d'); [ | split; discriminate ].
  destruct (Hp us) as (P1 & P2). destruct (p us) as [a [|]| | |]; try (split; discriminate); congruence.
Qed.
Lemma safe_sub : forall A (p : list ttree -> option (A * list ttree)), safe (p_sub p).
Proof. intros A p ts. unfold p_sub. destruct (p ts) as [[a r]|]; split; discriminate. Qed.

Lemma safe_terminated : forall A (item : parsing A) c, safe item -> no_longer item ->
  forall fuel ts, length ts < fuel -> p_terminated item c fuel ts <> PFuel /\ p_terminated item c fuel ts <> PPanic.
Proof.
  intros A item c Hs Hn. induction fuel as [|f IH]; intros ts Hl; [ lia | ]. cbn [p_terminated].
  destruct ts as [|t ts]; [ split; discriminate | ]. apply bind_at; [ apply Hs | ]. intros a r Ei.
  apply Hn in Ei. destruct r as [|x r]; [ split; discriminate | ]. apply bind_at; [ apply safe_punct | ]. intros u r' Ep.
  apply punct1_ok in Ep. destruct Ep as (j & Er). injection Er as -> ->. cbn in Ei, Hl.
  apply bind_at; [ apply IH; lia | intros; split; discriminate ].
Qed.

Lemma listed_sound : forall A (item : parsing A) is c, (forall ts a r, item ts = POk a r -> exists us, ts = us ++ r /\ is us a) ->
  forall fuel ts l r, p_terminated item c fuel ts = POk l r -> r = [] /\ listed is c ts l.
Proof.
  intros A item is c Hi. induction fuel as [|f IH]; intros ts l r H; [ discriminate H | ]. cbn [p_terminated] in H.
  destruct ts as [|t ts]; [ inversion H; subst; split; [ reflexivity | constructor ] | ].
  apply bind_ok in H. destruct H as (a & r1 & E1 & H). apply Hi in E1. destruct E1 as (us & E1 & H1).
  destruct r1 as [|x r1].
  - injection H as <- <-. rewrite app_nil_r in E1. rewrite E1. split; [ reflexivity | constructor; exact H1 ].
  - apply bind_ok in H. destruct H as (u & r2 & E2 & H). apply punct1_ok in E2. destruct E2 as (j & E2). injection E2 as -> ->.
    apply bind_ok in H. destruct H as (l' & r3 & E3 & H). apply ret_ok in H. destruct H as (<- & <-).
    apply IH in E3. destruct E3 as (-> & E3). rewrite E1. split; [ reflexivity | constructor; assumption ].
Qed.
Lemma listed_complete : forall A (item : parsing A) (is : list ttree -> A -> Prop) c,
  (forall us a r, is us a -> at_end r \/ before_punct c r -> item (us ++ r) = POk a r) -> (forall us a, is us a -> us <> []) ->
  forall ts l, listed is c ts l -> forall fuel, length ts < fuel -> p_terminated item c fuel ts = POk l [].
Proof.
  intros A item is c Hi Hn ts l H. induction H as [|us a H|us a j vs l H _ IH]; intros fuel Hf; (destruct fuel as [|f]; [ lia | ]); cbn [p_terminated].
  - reflexivity.
  - pose proof (Hn _ _ H) as N. destruct us as [|t us]; [ congruence | ]. apply bind_ok. exists a, []. split; [ | reflexivity ].
    rewrite <- (app_nil_r (t :: us)). apply Hi; [ exact H | left; reflexivity ].
  - pose proof (Hn _ _ H) as N. destruct us as [|t us]; [ congruence | ]. cbn [app]. apply bind_ok. exists a, (TPunct c j :: vs). split.
    + rewrite app_comm_cons. apply Hi; [ exact H | right; exists j, vs; reflexivity ].
    + apply bind_ok. exists tt, vs. split; [ apply punct1_ok; eauto | ]. apply bind_ok. exists l, []. split; [ | reflexivity ].
      apply IH. rewrite app_length in Hf. cbn in Hf. lia.
Qed.

Section Readers.
  Variable keyword : string -> bool.
  Context {Vis Path Expr Typ Pat : Type}.
  Variables (p_vis : list ttree -> option (Vis * list ttree)) (p_path : list ttree -> option (Path * list ttree)) (p_expr : list ttree -> option (Expr * list ttree))
            (p_type : list ttree -> option (Typ * list ttree)) (p_pat : list ttree -> option (Pat * list ttree)).
  Variables (is_vis : list ttree -> Vis -> Prop) (is_path : list ttree -> Path -> Prop) (is_expr : list ttree -> Expr -> Prop)
            (is_type : list ttree -> Typ -> Prop) (is_pat : list ttree -> Pat -> Prop).
  Hypothesis Hvis : reads p_vis is_vis before_fn.
  Hypothesis Hpath : reads p_path is_path before_brace.
  Hypothesis Hexpr : reads p_expr is_expr after_expr.
  Hypothesis Htype : reads p_type is_type (before_punct ";").
  Hypothesis Hpat : reads p_pat is_pat before_arrow.

  Lemma sub_no_longer : forall A (p : list ttree -> option (A * list ttree)) is F, reads p is F -> forall ts a r, p ts = Some (a, r) -> length r <= length ts.
  Proof. intros A p is F R ts a r E. destruct (reads_only _ _ _ R _ _ _ E) as (us & -> & _). rewrite app_length. lia. Qed.

  (** ** Items *)
  Lemma key_ok : forall ts k r, p_key keyword ts = POk k r <-> exists t, ts = t :: r /\ key_text keyword t k.
  Proof.
    intros ts k r. unfold p_key. split.
    - destruct ts as [|t ts]; [ cbn; discriminate | ]. destruct (peek_str (t :: ts)) eqn:P; intros H; apply bind_ok in H; destruct H as (s & r' & E & H); apply ret_ok in H; destruct H as (<- & <-).
      + apply str_ok in E. injection E as -> ->. eexists. split; [ reflexivity | constructor ].
      + apply ident_ok in E. destruct E as (E & K). injection E as -> ->. eexists. split; [ reflexivity | constructor; exact K ].
    - intros (t & -> & K). inversion K; subst; cbn.
      + apply bind_ok. exists s, r. split; [ apply ident_ok; auto | reflexivity ].
      + reflexivity.
  Qed.
  Lemma token_item_sound : forall ts a r, p_token_item keyword p_expr ts = POk a r -> exists us, ts = us ++ r /\ token_text keyword is_expr us a.
  Proof.
    intros ts a r H. unfold p_token_item in H.
    apply bind_ok in H. destruct H as (k & r1 & E1 & H). apply key_ok in E1. destruct E1 as (t & -> & K).
    apply bind_ok in H. destruct H as (u & r2 & E2 & H). apply punct1_ok in E2. destruct E2 as (j & ->).
    apply bind_ok in H. destruct H as (v & r3 & E3 & H). apply sub_ok in E3. apply ret_ok in H. destruct H as (<- & <-).
    destruct (reads_only _ _ _ Hexpr _ _ _ E3) as (us & -> & Is). exists (t :: TPunct "=" j :: us). split; [ reflexivity | constructor; assumption ].
  Qed.
  Lemma token_item_complete : forall us a r, token_text keyword is_expr us a -> at_end r \/ before_punct "," r -> p_token_item keyword p_expr (us ++ r) = POk a r.
  Proof.
    intros us a r H F. destruct H as [t k j us v K Is]. unfold p_token_item. cbn [app].
    apply bind_ok. eexists k, _. split; [ apply key_ok; eexists; split; [ reflexivity | exact K ] | ].
    apply bind_ok. eexists tt, _. split; [ apply punct1_ok; eauto | ].
    apply bind_ok. eexists v, r. split; [ apply sub_ok; apply (reads_all _ _ _ Hexpr); [ exact Is | unfold after_expr; tauto ] | reflexivity ].
  Qed.
  Lemma symbol_item_sound : forall ts a r, p_symbol_item keyword p_expr ts = POk a r -> exists us, ts = us ++ r /\ symbol_text keyword is_expr us a.
  Proof.
    intros ts a r H. unfold p_symbol_item in H.
    apply bind_ok in H. destruct H as (k & r1 & E1 & H). apply ident_ok in E1. destruct E1 as (-> & K).
    apply bind_ok in H. destruct H as (u & r2 & E2 & H). apply punct1_ok in E2. destruct E2 as (j & ->).
    apply bind_ok in H. destruct H as (v & r3 & E3 & H). apply sub_ok in E3. apply ret_ok in H. destruct H as (<- & <-).
    destruct (reads_only _ _ _ Hexpr _ _ _ E3) as (us & -> & Is). exists (TIdent k :: TPunct "=" j :: us). split; [ reflexivity | constructor; assumption ].
  Qed.
  Lemma symbol_item_complete : forall us a r, symbol_text keyword is_expr us a -> at_end r \/ before_punct "," r -> p_symbol_item keyword p_expr (us ++ r) = POk a r.
  Proof.
    intros us a r H F. destruct H as [s j us v K Is]. unfold p_symbol_item. cbn [app].
    apply bind_ok. eexists s, _. split; [ apply ident_ok; split; [ reflexivity | exact K ] | ].
    apply bind_ok. eexists tt, _. split; [ apply punct1_ok; eauto | ].
    apply bind_ok. eexists v, r. split; [ apply sub_ok; apply (reads_all _ _ _ Hexpr); [ exact Is | unfold after_expr; tauto ] | reflexivity ].
  Qed.
  Lemma tok_rule_sound : forall ts a r, p_tok_rule p_expr ts = POk a r -> exists us, ts = us ++ r /\ pattern_text is_expr us a.
  Proof.
    intros ts a r H. unfold p_tok_rule in H.
    apply bind_ok in H. destruct H as (k & r1 & E1 & H). apply str_ok in E1. subst ts.
    apply bind_ok in H. destruct H as (u & r2 & E2 & H). apply punct1_ok in E2. destruct E2 as (j & ->).
    apply bind_ok in H. destruct H as (v & r3 & E3 & H). apply sub_ok in E3. apply ret_ok in H. destruct H as (<- & <-).
    destruct (reads_only _ _ _ Hexpr _ _ _ E3) as (us & -> & Is). exists (TStr k :: TPunct ":" j :: us). split; [ reflexivity | constructor; assumption ].
  Qed.
  Lemma tok_rule_complete : forall us a r, pattern_text is_expr us a -> at_end r \/ before_punct ";" r -> p_tok_rule p_expr (us ++ r) = POk a r.
  Proof.
    intros us a r H F. destruct H as [s j us v Is]. unfold p_tok_rule. cbn [app].
    apply bind_ok. eexists s, _. split; [ apply str_ok; reflexivity | ].
    apply bind_ok. eexists tt, _. split; [ apply punct1_ok; eauto | ].
    apply bind_ok. eexists v, r. split; [ apply sub_ok; apply (reads_all _ _ _ Hexpr); [ exact Is | unfold after_expr; tauto ] | reflexivity ].
  Qed.
  Lemma token_items_ok : forall ts l r, p_list (p_token_item keyword p_expr) "," ts = POk l r <-> r = [] /\ listed (token_text keyword is_expr) "," ts l.
  Proof.
    intros ts l r. split.
    - intros H. eapply listed_sound; [ exact token_item_sound | exact H ].
    - intros (-> & H). eapply listed_complete; [ exact token_item_complete | intros us a T E; inversion T; congruence | exact H | lia ].
  Qed.
  Lemma symbol_items_ok : forall ts l r, p_list (p_symbol_item keyword p_expr) "," ts = POk l r <-> r = [] /\ listed (symbol_text keyword is_expr) "," ts l.
  Proof.
    intros ts l r. split.
    - intros H. eapply listed_sound; [ exact symbol_item_sound | exact H ].
    - intros (-> & H). eapply listed_complete; [ exact symbol_item_complete | intros us a T E; inversion T; congruence | exact H | lia ].
  Qed.
  Lemma tok_rules_ok : forall ts l r, p_list (p_tok_rule p_expr) ";" ts = POk l r <-> r = [] /\ listed (pattern_text is_expr) ";" ts l.
  Proof.
    intros ts l r. split.
    - intros H. eapply listed_sound; [ exact tok_rule_sound | exact H ].
    - intros (-> & H). eapply listed_complete; [ exact tok_rule_complete | intros us a T E; inversion T; congruence | exact H | lia ].
  Qed.

  (** ** Rules *)
  Lemma bnf_symbol_sound : forall ts x r, p_bnf_symbol keyword ts = POk x r -> exists us, ts = us ++ r /\ item_text keyword us x /\ us <> [].
  Proof.
    intros ts x r H. unfold p_bnf_symbol in H. destruct (peek_punct ["<"] ts) eqn:P1.
    - apply bind_ok in H. destruct H as (u & r1 & E1 & H). apply punct1_ok in E1. destruct E1 as (j & ->).
      apply bind_ok in H. destruct H as (n & r2 & E2 & H). apply ident_ok in E2. destruct E2 as (-> & K).
      apply bind_ok in H. destruct H as (u' & r3 & E3 & H). apply punct1_ok in E3. destruct E3 as (k & ->). apply ret_ok in H. destruct H as (<- & <-).
      exists [TPunct "<" j; TIdent n; TPunct ">" k]. split; [ reflexivity | split; [ constructor; exact K | discriminate ] ].
    - destruct (peek_word "ERROR" ts) eqn:P2.
      + apply bind_ok in H. destruct H as (u & r1 & E1 & H). apply word_ok in E1. subst ts. apply ret_ok in H. destruct H as (<- & <-).
        exists [TIdent "ERROR"]. split; [ reflexivity | split; [ constructor | discriminate ] ].
      + destruct (peek_group Bracket ts) eqn:P3; apply bind_ok in H; destruct H as (u & r1 & E1 & H); apply ret_ok in H; destruct H as (<- & <-).
        * apply group_ok in E1. destruct E1 as (us & -> & E1). apply ident_ok in E1. destruct E1 as (-> & K).
          exists [TGroup Bracket [TIdent u]]. split; [ reflexivity | split; [ constructor; exact K | discriminate ] ].
        * apply str_ok in E1. subst ts. exists [TStr u]. split; [ reflexivity | split; [ constructor | discriminate ] ].
  Qed.
  Lemma bnf_symbol_complete : forall us x r, item_text keyword us x -> p_bnf_symbol keyword (us ++ r) = POk x r.
  Proof.
    intros us x r H. destruct H as [n j k K| |n K|s]; unfold p_bnf_symbol; cbn; unfold pbind; cbn; try rewrite K; reflexivity.
  Qed.
  Lemma symbols_sound : forall fuel ts l r, p_symbols keyword fuel ts = POk l r -> exists us, ts = us ++ r /\ items_text keyword us l.
  Proof.
    induction fuel as [|f IH]; intros ts l r H; [ discriminate H | ]. cbn [p_symbols] in H. destruct (peek_punct [":"] ts).
    - injection H as <- <-. exists []. split; [ reflexivity | constructor ].
    - apply bind_ok in H. destruct H as (x & r1 & E1 & H). apply bind_ok in H. destruct H as (l' & r2 & E2 & H). apply ret_ok in H. destruct H as (<- & <-).
      apply bnf_symbol_sound in E1. destruct E1 as (us & -> & T & _). apply IH in E2. destruct E2 as (vs & -> & T2).
      exists (us ++ vs). split; [ rewrite app_assoc; reflexivity | constructor; assumption ].
  Qed.
  Lemma symbols_complete : forall us l, items_text keyword us l -> forall r, before_punct ":" r -> forall fuel, length us < fuel -> p_symbols keyword fuel (us ++ r) = POk l r.
  Proof.
    intros us l H. induction H as [|us x vs l H _ IH]; intros r (j & r' & ->) fuel Hf; (destruct fuel as [|f]; [ lia | ]); cbn [p_symbols].
    - reflexivity.
    - rewrite <- app_assoc. assert (peek_punct [":"] (us ++ vs ++ TPunct ":" j :: r') = false) as -> by (destruct H; reflexivity).
      apply bind_ok. eexists x, _. split; [ apply bnf_symbol_complete; exact H | ].
      apply bind_ok. eexists l, _. split; [ apply IH; [ exists j, r'; reflexivity | ] | reflexivity ].
      rewrite app_length in Hf. destruct H; cbn in Hf; lia.
  Qed.
  Lemma bnf_key_ok : forall ts k r, p_bnf_key keyword ts = POk k r <-> exists us, ts = us ++ r /\ left_text keyword us k.
  Proof.
    intros ts k r. split.
    - unfold p_bnf_key. destruct (peek_punct ["<"] ts) eqn:P; intros H.
      + apply bind_ok in H. destruct H as (u & r1 & E1 & H). apply punct1_ok in E1. destruct E1 as (j & ->).
        apply bind_ok in H. destruct H as (n & r2 & E2 & H). apply ident_ok in E2. destruct E2 as (-> & K).
        apply bind_ok in H. destruct H as (u' & r3 & E3 & H). apply punct1_ok in E3. destruct E3 as (k' & ->).
        apply bind_ok in H. destruct H as (u2 & r4 & E4 & H). apply punct2_ok in E4. destruct E4 as (l & ->).
        apply bind_ok in H. destruct H as (u3 & r5 & E5 & H). apply punct1_ok in E5. destruct E5 as (m & ->). apply ret_ok in H. destruct H as (<- & <-).
        exists [TPunct "<" j; TIdent n; TPunct ">" k'; TPunct ":" true; TPunct ":" l; TPunct "=" m]. split; [ reflexivity | constructor; exact K ].
      + apply bind_ok in H. destruct H as (u & r1 & E1 & H). apply punct1_ok in E1. destruct E1 as (j & ->). apply ret_ok in H. destruct H as (<- & <-).
        exists [TPunct "|" j]. split; [ reflexivity | constructor ].
    - intros (us & -> & H). destruct H as [n j k' l m K|j]; unfold p_bnf_key; cbn; unfold pbind; cbn; try rewrite K; reflexivity.
  Qed.
  Lemma left_nonempty : forall us k, left_text keyword us k -> us <> [].
  Proof. intros us k H. destruct H; discriminate. Qed.

  Lemma bnf_rule_sound : forall ts x r, p_bnf_rule keyword p_expr p_pat ts = POk x r -> exists us, ts = us ++ r /\ rule_text keyword is_expr is_pat us x.
  Proof.
    intros ts x r H. unfold p_bnf_rule in H.
    apply bind_ok in H. destruct H as (k & r1 & E1 & H). apply bnf_key_ok in E1. destruct E1 as (ks & -> & K).
    apply bind_ok in H. destruct H as (l & r2 & E2 & H). apply symbols_sound in E2. destruct E2 as (xs & -> & X).
    apply bind_ok in H. destruct H as (u & r3 & E3 & H). apply punct1_ok in E3. destruct E3 as (j1 & ->).
    apply bind_ok in H. destruct H as (pt & r4 & E4 & H). apply sub_ok in E4. apply (reads_only _ _ _ Hpat) in E4. destruct E4 as (ps & -> & P).
    apply bind_ok in H. destruct H as (u2 & r5 & E5 & H). apply punct2_ok in E5. destruct E5 as (j2 & ->).
    apply bind_ok in H. destruct H as (g & r6 & E6 & H). apply sub_ok in E6. apply (reads_only _ _ _ Hexpr) in E6. destruct E6 as (es & -> & G).
    apply bind_ok in H. destruct H as (u3 & r7 & E7 & H). apply punct1_ok in E7. destruct E7 as (j3 & ->). apply ret_ok in H. destruct H as (<- & <-).
    eexists. split; [ | constructor; eassumption ]. repeat (rewrite <- app_assoc; cbn [app]). reflexivity.
  Qed.
  Lemma bnf_rule_complete : forall us x r, rule_text keyword is_expr is_pat us x -> p_bnf_rule keyword p_expr p_pat (us ++ r) = POk x r.
  Proof.
    intros us x r H. destruct H as [ks k xs l ps p es g j1 j2 j3 K X P G]. repeat (rewrite <- app_assoc; cbn [app]). unfold p_bnf_rule.
    apply bind_ok. eexists k, _. split; [ apply bnf_key_ok; eexists; split; [ reflexivity | exact K ] | ].
    apply bind_ok. eexists l, _. split; [ apply symbols_complete; [ exact X | eexists _, _; reflexivity | rewrite app_length; lia ] | ].
    apply bind_ok. eexists tt, _. split; [ apply punct1_ok; eauto | ].
    apply bind_ok. eexists p, _. split; [ apply sub_ok; apply (reads_all _ _ _ Hpat); [ exact P | eexists _, _; reflexivity ] | ].
    apply bind_ok. eexists tt, _. split; [ apply punct2_ok; eauto | ].
    apply bind_ok. eexists g, _. split; [ apply sub_ok; apply (reads_all _ _ _ Hexpr); [ exact G | right; right; eexists _, _; reflexivity ] | ].
    apply bind_ok. eexists tt, _. split; [ apply punct1_ok; eauto | ]. reflexivity.
  Qed.
  Lemma rules_sound : forall fuel ts l r, p_rules keyword p_expr p_pat fuel ts = POk l r -> r = [] /\ rules_text keyword is_expr is_pat ts l.
  Proof.
    induction fuel as [|f IH]; intros ts l r H; [ discriminate H | ]. cbn [p_rules] in H. destruct ts as [|t ts]; [ injection H as <- <-; split; [ reflexivity | constructor ] | ].
    apply bind_ok in H. destruct H as (x & r1 & E1 & H). apply bind_ok in H. destruct H as (l' & r2 & E2 & H). apply ret_ok in H. destruct H as (<- & <-).
    apply bnf_rule_sound in E1. destruct E1 as (us & -> & T). apply IH in E2. destruct E2 as (-> & T2). split; [ reflexivity | constructor; assumption ].
  Qed.
  Lemma rules_complete : forall ts l, rules_text keyword is_expr is_pat ts l -> forall fuel, length ts < fuel -> p_rules keyword p_expr p_pat fuel ts = POk l [].
  Proof.
    intros ts l H. induction H as [|us x vs l H _ IH]; intros fuel Hf; (destruct fuel as [|f]; [ lia | ]); cbn [p_rules]; [ reflexivity | ].
    assert (us <> []) as N.
    { destruct H as [ks k xs l' ps p es g j1 j2 j3 K X P G]. apply left_nonempty in K. destruct ks; [ congruence | discriminate ]. }
    destruct us as [|t us]; [ congruence | ]. cbn [app]. apply bind_ok. exists x, vs. split; [ rewrite app_comm_cons; apply bnf_rule_complete; exact H | ].
    apply bind_ok. exists l, []. split; [ apply IH | reflexivity ]. cbn in Hf. rewrite app_length in Hf. lia.
  Qed.

  Lemma no_args_ok : forall ts u r, p_no_args ts = POk u r <-> ts = TGroup Paren [] :: r.
  Proof.
    intros ts [] r. unfold p_no_args. split.
    - destruct ts as [|[| | | |[| |] [|]] ts]; try discriminate. intros E; inversion E; reflexivity.
    - intros ->. reflexivity.
  Qed.

  (** ** The whole inputs *)
  Lemma read_parser_iff : forall ts si, read_parser keyword p_vis p_path p_expr p_type p_pat ts = POk si [] <-> parser_text keyword is_vis is_path is_expr is_type is_pat ts si.
  Proof.
    intros ts si. unfold read_parser, whole. split.
    - destruct (p_parser_input keyword p_vis p_path p_expr p_type p_pat ts) as [a [|x rr]| | |] eqn:H; try discriminate. intros E. injection E as ->. unfold p_parser_input in H.
      apply bind_ok in H. destruct H as (v & r1 & E1 & H). apply sub_ok in E1. apply (reads_only _ _ _ Hvis) in E1. destruct E1 as (vs & -> & V).
      apply bind_ok in H. destruct H as (u1 & r2 & E2 & H). apply word_ok in E2. subst r1.
      apply bind_ok in H. destruct H as (name & r3 & E3 & H). apply ident_ok in E3. destruct E3 as (-> & K).
      apply bind_ok in H. destruct H as (u2 & r4 & E4 & H). apply no_args_ok in E4. subst r3.
      apply bind_ok in H. destruct H as (u3 & r5 & E5 & H). apply punct2_ok in E5. destruct E5 as (j & ->).
      apply bind_ok in H. destruct H as (u4 & r6 & E6 & H). apply word_ok in E6. subst r5.
      apply group_ok in H. destruct H as (body & -> & H).
      apply bind_ok in H. destruct H as ([tn tl] & r7 & E7 & H). unfold p_token_list in E7.
      apply bind_ok in E7. destruct E7 as (u5 & q1 & F1 & E7). apply word_ok in F1. subst body.
      apply bind_ok in E7. destruct E7 as (n1 & q2 & F2 & E7). apply sub_ok in F2. apply (reads_only _ _ _ Hpath) in F2. destruct F2 as (tps & -> & TP).
      apply bind_ok in E7. destruct E7 as (l1 & q3 & F3 & E7). apply group_ok in F3. destruct F3 as (tls & -> & F3). apply token_items_ok in F3. destruct F3 as (_ & TL).
      apply ret_ok in E7. destruct E7 as (E7 & ->). injection E7 as -> ->.
      apply bind_ok in H. destruct H as ([sn sl] & r8 & E8 & H). unfold p_symbol_list in E8.
      apply bind_ok in E8. destruct E8 as (u6 & q1 & F1 & E8). apply word_ok in F1. subst r7.
      apply bind_ok in E8. destruct E8 as (n2 & q2 & F2 & E8). apply sub_ok in F2. apply (reads_only _ _ _ Hpath) in F2. destruct F2 as (sps & -> & SP).
      apply bind_ok in E8. destruct E8 as (l2 & q4 & F3 & E8). apply group_ok in F3. destruct F3 as (sls & -> & F3). apply symbol_items_ok in F3. destruct F3 as (_ & SL).
      apply ret_ok in E8. destruct E8 as (E8 & ->). injection E8 as -> ->.
      apply bind_ok in H. destruct H as (u7 & r9 & E9 & H). apply word_ok in E9. subst r8.
      apply bind_ok in H. destruct H as (e & r10 & E10 & H). apply sub_ok in E10. apply (reads_only _ _ _ Htype) in E10. destruct E10 as (es & -> & T).
      apply bind_ok in H. destruct H as (u8 & r11 & E11 & H). apply punct1_ok in E11. destruct E11 as (j1 & ->).
      apply bind_ok in H. destruct H as (u9 & r12 & E12 & H). apply word_ok in E12. subst r11.
      apply bind_ok in H. destruct H as (st & r13 & E13 & H). apply ident_ok in E13. destruct E13 as (-> & KS).
      apply bind_ok in H. destruct H as (u10 & r14 & E14 & H). apply punct1_ok in E14. destruct E14 as (j2 & ->).
      apply bind_ok in H. destruct H as (rs & r15 & E15 & H). apply rules_sound in E15. destruct E15 as (-> & RS).
      apply ret_ok in H. destruct H as (<- & _). constructor; assumption.
    - intros H. destruct H as [vs v name j tps tp tls tl sps sp sls sl es e j1 st j2 rs rl V K TP TL SP SL T KS RS].
      match goal with |- match ?x with _ => _ end = POk ?s [] => assert (x = POk s []) as -> end; [ | reflexivity ].
      unfold p_parser_input.
      apply bind_ok. eexists v, _. split; [ apply sub_ok; apply (reads_all _ _ _ Hvis); [ exact V | eexists; reflexivity ] | ].
      apply bind_ok. eexists tt, _. split; [ apply word_ok; reflexivity | ].
      apply bind_ok. eexists name, _. split; [ apply ident_ok; split; [ reflexivity | exact K ] | ].
      apply bind_ok. eexists tt, _. split; [ apply no_args_ok; reflexivity | ].
      apply bind_ok. eexists tt, _. split; [ apply punct2_ok; eexists; reflexivity | ].
      apply bind_ok. eexists tt, _. split; [ apply word_ok; reflexivity | ].
      apply group_ok. eexists. split; [ reflexivity | ].
      apply bind_ok. eexists (tp, tl), _. split.
      { apply bind_ok. eexists tt, _. split; [ apply word_ok; reflexivity | ].
        apply bind_ok. eexists tp, _. split; [ apply sub_ok; apply (reads_all _ _ _ Hpath); [ exact TP | eexists _, _; reflexivity ] | ].
        apply bind_ok. eexists tl, _. split; [ apply group_ok; eexists; split; [ reflexivity | apply token_items_ok; auto ] | reflexivity ]. }
      apply bind_ok. eexists (sp, sl), _. split.
      { apply bind_ok. eexists tt, _. split; [ apply word_ok; reflexivity | ].
        apply bind_ok. eexists sp, _. split; [ apply sub_ok; apply (reads_all _ _ _ Hpath); [ exact SP | eexists _, _; reflexivity ] | ].
        apply bind_ok. eexists sl, _. split; [ apply group_ok; eexists; split; [ reflexivity | apply symbol_items_ok; auto ] | reflexivity ]. }
      apply bind_ok. eexists tt, _. split; [ apply word_ok; reflexivity | ].
      apply bind_ok. eexists e, _. split; [ apply sub_ok; apply (reads_all _ _ _ Htype); [ exact T | eexists _, _; reflexivity ] | ].
      apply bind_ok. eexists tt, _. split; [ apply punct1_ok; eauto | ].
      apply bind_ok. eexists tt, _. split; [ apply word_ok; reflexivity | ].
      apply bind_ok. eexists st, _. split; [ apply ident_ok; split; [ reflexivity | exact KS ] | ].
      apply bind_ok. eexists tt, _. split; [ apply punct1_ok; eauto | ].
      apply bind_ok. eexists rl, _. split; [ apply rules_complete; [ exact RS | lia ] | ]. reflexivity.
  Qed.

  Lemma read_tokenizer_iff : forall ts ti, read_tokenizer keyword p_vis p_expr p_type ts = POk ti [] <-> tokenizer_text keyword is_vis is_expr is_type ts ti.
  Proof.
    intros ts ti. unfold read_tokenizer, whole. split.
    - destruct (p_tokenizer_input keyword p_vis p_expr p_type ts) as [a [|x rr]| | |] eqn:H; try discriminate. intros E. injection E as ->. unfold p_tokenizer_input in H.
      apply bind_ok in H. destruct H as (v & r1 & E1 & H). apply sub_ok in E1. apply (reads_only _ _ _ Hvis) in E1. destruct E1 as (vs & -> & V).
      apply bind_ok in H. destruct H as (u1 & r2 & E2 & H). apply word_ok in E2. subst r1.
      apply bind_ok in H. destruct H as (name & r3 & E3 & H). apply ident_ok in E3. destruct E3 as (-> & K).
      apply bind_ok in H. destruct H as (u2 & r4 & E4 & H). apply no_args_ok in E4. subst r3.
      apply bind_ok in H. destruct H as (u3 & r5 & E5 & H). apply punct2_ok in E5. destruct E5 as (j & ->).
      apply bind_ok in H. destruct H as (u4 & r6 & E6 & H). apply word_ok in E6. subst r5.
      apply group_ok in H. destruct H as (body & -> & H).
      apply bind_ok in H. destruct H as (u5 & r7 & E7 & H). apply word_ok in E7. subst body.
      apply bind_ok in H. destruct H as (c & r8 & E8 & H). apply sub_ok in E8. apply (reads_only _ _ _ Htype) in E8. destruct E8 as (cs & -> & C).
      apply bind_ok in H. destruct H as (u6 & r9 & E9 & H). apply punct1_ok in E9. destruct E9 as (j1 & ->).
      apply bind_ok in H. destruct H as (u7 & r10 & E10 & H). apply word_ok in E10. subst r9.
      apply bind_ok in H. destruct H as (t & r11 & E11 & H). apply sub_ok in E11. apply (reads_only _ _ _ Htype) in E11. destruct E11 as (ts & -> & T).
      apply bind_ok in H. destruct H as (u8 & r12 & E12 & H). apply punct1_ok in E12. destruct E12 as (j2 & ->).
      apply bind_ok in H. destruct H as (l & r13 & E13 & H). apply tok_rules_ok in E13. destruct E13 as (-> & L).
      apply ret_ok in H. destruct H as (<- & _). constructor; assumption.
    - intros H. destruct H as [vs v name j cs c j1 ts t j2 rs rl V K C T L].
      match goal with |- match ?x with _ => _ end = POk ?s [] => assert (x = POk s []) as -> end; [ | reflexivity ].
      unfold p_tokenizer_input.
      apply bind_ok. eexists v, _. split; [ apply sub_ok; apply (reads_all _ _ _ Hvis); [ exact V | eexists; reflexivity ] | ].
      apply bind_ok. eexists tt, _. split; [ apply word_ok; reflexivity | ].
      apply bind_ok. eexists name, _. split; [ apply ident_ok; split; [ reflexivity | exact K ] | ].
      apply bind_ok. eexists tt, _. split; [ apply no_args_ok; reflexivity | ].
      apply bind_ok. eexists tt, _. split; [ apply punct2_ok; eexists; reflexivity | ].
      apply bind_ok. eexists tt, _. split; [ apply word_ok; reflexivity | ].
      apply group_ok. eexists. split; [ reflexivity | ].
      apply bind_ok. eexists tt, _. split; [ apply word_ok; reflexivity | ].
      apply bind_ok. eexists c, _. split; [ apply sub_ok; apply (reads_all _ _ _ Htype); [ exact C | eexists _, _; reflexivity ] | ].
      apply bind_ok. eexists tt, _. split; [ apply punct1_ok; eauto | ].
      apply bind_ok. eexists tt, _. split; [ apply word_ok; reflexivity | ].
      apply bind_ok. eexists t, _. split; [ apply sub_ok; apply (reads_all _ _ _ Htype); [ exact T | eexists _, _; reflexivity ] | ].
      apply bind_ok. eexists tt, _. split; [ apply punct1_ok; eauto | ].
      apply bind_ok. eexists rl, _. split; [ apply tok_rules_ok; auto | ]. reflexivity.
  Qed.

  (** ** Panics *)
  Lemma safe_key : safe (p_key keyword).
  Proof. intros ts. unfold p_key. destruct (peek_str ts); revert ts; apply safe_bind; auto using safe_str, safe_ident, safe_ret. Qed.
  Lemma safe_token_item : safe (p_token_item keyword p_expr).
  Proof. unfold p_token_item. repeat (apply safe_bind; [ auto using safe_key, safe_punct, safe_sub | intros ? ]). apply safe_ret. Qed.
  Lemma safe_symbol_item : safe (p_symbol_item keyword p_expr).
  Proof. unfold p_symbol_item. repeat (apply safe_bind; [ auto using safe_ident, safe_punct, safe_sub | intros ? ]). apply safe_ret. Qed.
  Lemma safe_tok_rule : safe (p_tok_rule p_expr).
  Proof. unfold p_tok_rule. repeat (apply safe_bind; [ auto using safe_str, safe_punct, safe_sub | intros ? ]). apply safe_ret. Qed.
  Lemma safe_list : forall A (item : parsing A) is c, safe item -> (forall ts a r, item ts = POk a r -> exists us, ts = us ++ r /\ is us a) -> safe (p_list item c).
  Proof.
    intros A item is c Hs Hi ts. apply safe_terminated; [ exact Hs | | lia ]. intros ts' a r E. apply Hi in E. destruct E as (us & -> & _). rewrite app_length. lia.
  Qed.
  Lemma safe_bnf_symbol : safe (p_bnf_symbol keyword).
  Proof.
    intros ts. unfold p_bnf_symbol. destruct (peek_punct ["<"] ts); [ | destruct (peek_word "ERROR" ts); [ | destruct (peek_group Bracket ts) ] ]; revert ts;
      repeat (apply safe_bind; [ auto using safe_ident, safe_punct, safe_word, safe_group, safe_str | intros ? ]); apply safe_ret.
  Qed.
  Lemma safe_symbols : forall fuel ts, length ts < fuel -> p_symbols keyword fuel ts <> PFuel /\ p_symbols keyword fuel ts <> PPanic.
  Proof.
    induction fuel as [|f IH]; intros ts Hl; [ lia | ]. cbn [p_symbols]. destruct (peek_punct [":"] ts); [ split; discriminate | ].
    apply bind_at; [ apply safe_bnf_symbol | ]. intros x r E.
    apply bnf_symbol_sound in E. destruct E as (us & -> & _ & N). rewrite app_length in Hl. destruct us; [ congruence | cbn in Hl ].
    apply bind_at; [ apply IH; lia | intros; split; discriminate ].
  Qed.
  Lemma safe_bnf_key : safe (p_bnf_key keyword).
  Proof.
    intros ts. unfold p_bnf_key. destruct (peek_punct ["<"] ts); revert ts; repeat (apply safe_bind; [ auto using safe_ident, safe_punct | intros ? ]); apply safe_ret.
  Qed.
  Lemma safe_bnf_rule : safe (p_bnf_rule keyword p_expr p_pat).
  Proof.
    unfold p_bnf_rule. apply safe_bind; [ apply safe_bnf_key | intros k ]. apply safe_bind; [ intros ts; apply safe_symbols; lia | intros l ].
    repeat (apply safe_bind; [ auto using safe_punct, safe_sub | intros ? ]). apply safe_ret.
  Qed.
  Lemma safe_rules : forall fuel ts, length ts < fuel -> p_rules keyword p_expr p_pat fuel ts <> PFuel /\ p_rules keyword p_expr p_pat fuel ts <> PPanic.
  Proof.
    induction fuel as [|f IH]; intros ts Hl; [ lia | ]. cbn [p_rules]. destruct ts as [|t ts]; [ split; discriminate | ].
    apply bind_at; [ apply safe_bnf_rule | ]. intros x r E.
    apply bnf_rule_sound in E. destruct E as (us & E & T).
    assert (us <> []) as N.
    { destruct T as [ks k xs l' ps p es g j1 j2 j3 K X P G]. apply left_nonempty in K. destruct ks; [ congruence | discriminate ]. }
    apply (f_equal (@length ttree)) in E. rewrite app_length in E. destruct us; [ congruence | cbn in Hl, E ].
    apply bind_at; [ apply IH; lia | intros; split; discriminate ].
  Qed.

  (** the beginning, which is common to both macros *)
  Lemma head_outcome : forall A (rest : Vis -> string -> parsing A), (forall v n, safe (rest v n)) ->
    forall ts, let p := pdo v <- p_sub p_vis; pdo_ p_word "fn"; pdo name <- p_ident keyword; pdo_ p_no_args; rest v name in
    whole p ts <> PFuel /\ (whole p ts = PPanic <-> with_arguments keyword is_vis ts).
  Proof.
    intros A rest Hs ts p.
    assert (p ts <> PFuel /\ (p ts = PPanic <-> with_arguments keyword is_vis ts)) as (H1 & H2).
    { assert (forall vs v r, is_vis vs v -> p (vs ++ TIdent "fn" :: r) = (pdo name <- p_ident keyword; pdo_ p_no_args; rest v name) r) as C.
      { intros vs v r V. unfold p. unfold pbind at 1. unfold p_sub. rewrite (reads_all _ _ _ Hvis vs v); [ reflexivity | exact V | eexists; reflexivity ]. }
      destruct (p_vis ts) as [[v r]|] eqn:Ev.
      - destruct (reads_only _ _ _ Hvis _ _ _ Ev) as (vs & -> & V).
        destruct r as [|t0 r0].
        + assert (p (vs ++ []) = PErr) as -> by (unfold p, pbind at 1, p_sub; rewrite Ev; reflexivity).
          split; [ discriminate | ]. split; [ discriminate | ]. intros (vs' & v' & name & args & r' & V' & K & N & E). exfalso.
          rewrite E in Ev. rewrite (reads_all _ _ _ Hvis vs' v') in Ev; [ discriminate Ev | exact V' | eexists; reflexivity ].
        + assert (with_arguments keyword is_vis (vs ++ t0 :: r0) <-> exists name args r, keyword name = false /\ args <> [] /\ t0 :: r0 = TIdent "fn" :: TIdent name :: TGroup Paren args :: r) as W.
          { split.
            - intros (vs' & v' & name & args & r' & V' & K & N & E). rewrite E in Ev. rewrite (reads_all _ _ _ Hvis vs' v') in Ev; [ | exact V' | eexists; reflexivity ].
              injection Ev as _ E1 E2. exists name, args, r'. subst. auto.
            - intros (name & args & r' & K & N & E). rewrite E. exists vs, v, name, args, r'. auto. }
          assert (p (vs ++ t0 :: r0) = (pdo_ p_word "fn"; pdo name <- p_ident keyword; pdo_ p_no_args; rest v name) (t0 :: r0)) as -> by (unfold p, pbind at 1, p_sub; rewrite Ev; reflexivity).
          rewrite W. clear W C Ev p. destruct (safe_word "fn" (t0 :: r0)) as (S1 & S2). destruct (p_word "fn" (t0 :: r0)) as [u r1| | |] eqn:E1; try congruence.
          2: { rewrite (bind_perr _ _ _ _ _ E1). split; [ discriminate | ]. split; [ discriminate | ]. intros (name & args & r' & K & N & E). rewrite E in E1. discriminate E1. }
          rewrite (bind_pok _ _ _ _ _ _ _ E1). apply word_ok in E1. injection E1 as -> ->.
          destruct (safe_ident keyword r1) as (S3 & S4). destruct (p_ident keyword r1) as [n r2| | |] eqn:E2; try congruence.
          2: { rewrite (bind_perr _ _ _ _ _ E2). split; [ discriminate | ]. split; [ discriminate | ]. intros (name & args & r' & K & N & E). injection E as E. rewrite E in E2. cbn in E2. rewrite K in E2. discriminate E2. }
          rewrite (bind_pok _ _ _ _ _ _ _ E2). apply ident_ok in E2. destruct E2 as (-> & K).
          destruct r2 as [|[| | | |[| |] [|a args]] r2].
          all: try solve [ cbn; split; [ discriminate | split; [ discriminate | intros (name & args' & r' & K' & N & E); injection E; intros; congruence ] ] ].
          * cbn. unfold pbind. cbn. destruct (Hs v n r2) as (R1 & R2). split; [ exact R1 | ]. split; [ congruence | ].
            intros (name & args' & r' & K' & N & E). injection E as E1 E2 E3. congruence.
          * cbn. unfold pbind. cbn. split; [ discriminate | ]. split; [ | reflexivity ]. intros _. exists n, (a :: args), r2. split; [ exact K | split; [ discriminate | reflexivity ] ].
      - assert (p ts = PErr) as -> by (unfold p, pbind at 1, p_sub; rewrite Ev; reflexivity).
        split; [ discriminate | ]. split; [ discriminate | ]. intros (vs' & v' & name & args & r' & V' & K & N & E). exfalso.
        rewrite E in Ev. rewrite (reads_all _ _ _ Hvis vs' v') in Ev; [ discriminate Ev | exact V' | eexists; reflexivity ]. }
    unfold whole. destruct (p ts) as [a [|x r]| | |].
    - split; [ discriminate | exact H2 ].
    - split; [ discriminate | ]. rewrite <- H2. split; discriminate.
    - split; [ discriminate | exact H2 ].
    - split; [ discriminate | exact H2 ].
    - congruence.
  Qed.
  Lemma read_parser_outcome : forall ts,
    read_parser keyword p_vis p_path p_expr p_type p_pat ts <> PFuel /\ (read_parser keyword p_vis p_path p_expr p_type p_pat ts = PPanic <-> with_arguments keyword is_vis ts).
  Proof.
    intros ts. unfold read_parser, p_parser_input. apply (head_outcome (syn_input Vis Path Expr Typ Pat)). intros v n.
    apply safe_bind; [ apply safe_punct | intros u1 ]. apply safe_bind; [ apply safe_word | intros u2 ]. apply safe_group.
    apply safe_bind.
    { unfold p_token_list. apply safe_bind; [ apply safe_word | intros ? ]. apply safe_bind; [ apply safe_sub | intros ? ].
      apply safe_bind; [ apply safe_group; eapply safe_list; [ apply safe_token_item | exact token_item_sound ] | intros ?; apply safe_ret ]. }
    intros (tn & tl). apply safe_bind.
    { unfold p_symbol_list. apply safe_bind; [ apply safe_word | intros ? ]. apply safe_bind; [ apply safe_sub | intros ? ].
      apply safe_bind; [ apply safe_group; eapply safe_list; [ apply safe_symbol_item | exact symbol_item_sound ] | intros ?; apply safe_ret ]. }
    intros (sn & sl). repeat (apply safe_bind; [ solve [ auto using safe_word, safe_sub, safe_punct, safe_ident ] | intros ? ]).
    apply safe_bind; [ intros ts'; apply safe_rules; lia | intros ?; apply safe_ret ].
  Qed.
  Lemma read_tokenizer_outcome : forall ts,
    read_tokenizer keyword p_vis p_expr p_type ts <> PFuel /\ (read_tokenizer keyword p_vis p_expr p_type ts = PPanic <-> with_arguments keyword is_vis ts).
  Proof.
    intros ts. unfold read_tokenizer, p_tokenizer_input. apply (head_outcome (tok_input Vis Expr Typ)). intros v n.
    apply safe_bind; [ apply safe_punct | intros u1 ]. apply safe_bind; [ apply safe_word | intros u2 ]. apply safe_group.
    repeat (apply safe_bind; [ solve [ auto using safe_word, safe_sub, safe_punct, safe_ident ] | intros ? ]).
    apply safe_bind; [ eapply safe_list; [ apply safe_tok_rule | exact tok_rule_sound ] | intros ?; apply safe_ret ].
  Qed.
End Readers.
