(** Whole token streams, and the tokenizers that [build] and tokenizer! produce. *)
From Verif Require Import Lib Hir NfaPath NfaSem NfaModel NfaProofs NfaExact TokNfa DfaModel DfaEdges DfaProofs DfaTop MinModel MinProofs MinTop TokModel TokSpec TokProofs.

(** *** munch is a function when [accepts] is *)
Section MunchFacts.
  Context {T : Type}.
  Variable accepts : word -> nat -> Prop.
  Variable f : T -> N.
  Hypothesis Hdet : forall w p q, accepts w p -> accepts w q -> p = q.

  Lemma longest_det pend k p k' p' : longest accepts f pend k p -> longest accepts f pend k' p' -> k = k' /\ p = p'.
  Proof.
    intros (A1 & A2 & A3) (B1 & B2 & B3). destruct (Nat.lt_trichotomy k k') as [H|[->|H]].
    - exfalso. eapply A3; [|apply B2]. lia.
    - split; auto. eapply Hdet; eauto.
    - exfalso. eapply B3; [|apply A2]. lia.
  Qed.
  Lemma munch_det pend l : munch accepts f pend l -> forall l', munch accepts f pend l' -> l = l'.
  Proof.
    induction 1 as [pend Hn|pend k p rest Hl Hm IH]; intros l' H'; inversion H' as [? Hn'|? k' p' rest' Hl' Hm']; subst; auto.
    - exfalso. destruct Hl' as (A1 & A2 & _). eapply Hn; eauto.
    - exfalso. destruct Hl as (A1 & A2 & _). eapply Hn'; eauto.
    - destruct (longest_det _ _ _ _ _ Hl Hl') as [<- <-]. f_equal. auto.
  Qed.
  (** the items of the tokens and what is left over are the input *)
  Lemma munch_concat pend l : munch accepts f pend l -> exists rest, pend = concat (map snd l) ++ rest /\ nothing accepts f rest.
  Proof.
    induction 1 as [pend Hn|pend k p rest Hl Hm IH].
    - exists pend. auto.
    - destruct IH as (r & E & Hr). exists r. split; auto. simpl. rewrite <- app_assoc, <- E. symmetry. apply firstn_skipn.
  Qed.
  Lemma longest_ext acc' pend k p : (forall w q, accepts w q <-> acc' w q) -> longest accepts f pend k p -> longest acc' f pend k p.
  Proof. intros H (A1 & A2 & A3). split; auto. split; [apply H; auto|]. intros k' p' Hk Ha. eapply A3; eauto. apply H; eauto. Qed.
  Lemma munch_ext acc' pend l : (forall w q, accepts w q <-> acc' w q) -> munch accepts f pend l -> munch acc' f pend l.
  Proof.
    intros H. induction 1 as [pend Hn|pend k p rest Hl Hm IH].
    - constructor. intros k p Hk Ha. eapply Hn; eauto. apply H; eauto.
    - constructor; auto. eapply longest_ext; eauto.
  Qed.
End MunchFacts.

Section Collect.
  Context {E T : Type}.
  Variable t : tokenizer E T.
  Variable f : T -> N.
  Hypothesis Ht : tok_ok t.

  Lemma tok_accepts_det w p q : tok_accepts t w p -> tok_accepts t w q -> p = q.
  Proof. intros (n & A1 & A2) (m & B1 & B2). congruence. Qed.

  (** token [e] is made by the maker of its pattern from its items *)
  Definition made (e : E) (x : nat * list T) : Prop :=
    exists m, nth_error (tk_makers t) (fst x) = Some m /\ e = m (map f (snd x)) (snd x).

  Lemma collect_ok fuel s acc r : loop (collect_step t f) fuel (s, acc) = r ->
    r = OutOfFuel \/ exists es toks, r = Ok (acc ++ es) /\ munch (tok_accepts t) f (pend s) toks /\ Forall2 made es toks.
  Proof.
    revert s acc. induction fuel as [|fuel IH]; intros s acc; cbn [loop]; auto. unfold collect_step. cbn [fst snd].
    destruct (next_ok t f Ht s) as (o & s' & seen & En & [Hr _ _ _ _]). rewrite En.
    destruct o as [e|].
    - intros El. destruct Hr as (k & p & m & Hl & Hm & -> & Hp).
      destruct (IH _ _ El) as [->|(es & toks & -> & Hmu & Hf)]; auto. right.
      exists (m (map f (firstn k (pend s))) (firstn k (pend s)) :: es), ((p, firstn k (pend s)) :: toks).
      rewrite <- app_assoc. split; auto. split; [constructor; auto; rewrite <- Hp; auto|]. constructor; auto. exists m. auto.
    - intros <-. destruct Hr as [Hn Hp]. right. exists [], []. rewrite app_nil_r. split; auto. split; constructor. auto.
  Qed.

  Theorem tok_collect_ok fuel s : tok_collect fuel t f s = OutOfFuel \/
    exists es toks, tok_collect fuel t f s = Ok es /\ munch (tok_accepts t) f (pend s) toks /\ Forall2 made es toks.
  Proof. destruct (collect_ok fuel s [] _ eq_refl) as [H|(es & toks & H)]; [left|right; exists es, toks]; auto. Qed.

  Lemma collect_complete toks p : munch (tok_accepts t) f p toks -> forall s acc fuel, pend s = p -> length toks < fuel ->
    exists es, loop (collect_step t f) fuel (s, acc) = Ok es.
  Proof.
    induction 1 as [pe Hn|pe k p rest Hl Hm IH]; intros s acc fuel Hs Hf; (destruct fuel as [|fuel]; [lia|]); cbn [loop]; unfold collect_step; cbn [fst snd];
      destruct (next_ok t f Ht s) as (o & s' & seen & En & [Hr _ _ _ _]); rewrite En.
    - destruct o as [e|]; [|eauto]. destruct Hr as (k & p & m & (A1 & A2 & _) & _). exfalso. rewrite Hs in *. eapply Hn; eauto.
    - destruct o as [e|].
      + destruct Hr as (k' & p' & m & Hl' & _ & _ & Hp). rewrite Hs in *.
        destruct (longest_det _ _ tok_accepts_det _ _ _ _ _ Hl Hl') as [-> _]. apply IH; auto. simpl in Hf. lia.
      + destruct Hr as [Hn _]. rewrite Hs in *. destruct Hl as (A1 & A2 & _). exfalso. eapply Hn; eauto.
  Qed.
  Theorem tok_collect_complete toks s fuel : munch (tok_accepts t) f (pend s) toks -> length toks < fuel ->
    exists es, tok_collect fuel t f s = Ok es /\ Forall2 made es toks.
  Proof.
    intros Hm Hf. destruct (collect_complete toks _ Hm s [] fuel eq_refl Hf) as [es He]. exists es. split; auto.
    destruct (tok_collect_ok fuel s) as [H|(es' & toks' & H1 & H2 & H3)].
    - unfold tok_collect in H. congruence.
    - unfold tok_collect in H1. rewrite He in H1. inversion H1; subst es'. rewrite (munch_det _ _ tok_accepts_det _ _ Hm _ H2). auto.
  Qed.

  (** the start state accepts nothing: at most one token per item *)
  Theorem tok_collect_terminates s fuel : (forall p, ~ tok_accepts t [] p) -> length (pend s) < fuel ->
    exists es toks, tok_collect fuel t f s = Ok es /\ munch (tok_accepts t) f (pend s) toks /\ Forall2 made es toks /\
      length es <= length (pend s) /\ Forall (fun x => snd x <> []) toks.
  Proof.
    intros Hns Hf.
    assert (G : forall n p, length p <= n -> exists toks, munch (tok_accepts t) f p toks /\ length toks <= length p /\ Forall (fun x => snd x <> []) toks).
    { induction n as [|n IH]; intros p Hp.
      - destruct p; [|simpl in Hp; lia]. exists []. split; [|split; auto]. constructor. intros k q Hk. simpl in Hk. replace k with 0 by lia. simpl. auto.
      - destruct (next_ok t f Ht (mk_titer p [])) as (o & s' & seen & _ & [Hr _ _ _ _]). unfold pend at 1 2 3 4 5 6 7 8 in Hr. simpl in Hr.
        destruct o as [e|].
        + destruct Hr as (k & q & m & Hl & _ & _ & Hs'). pose proof Hl as (A1 & A2 & _).
          assert (Hk : k <> 0) by (intros ->; simpl in A2; eapply Hns; eauto).
          destruct (IH (skipn k p)) as (toks & B1 & B2 & B3); [rewrite skipn_length; lia|].
          rewrite skipn_length in B2. exists ((q, firstn k p) :: toks). split; [constructor; auto|]. split; [simpl; lia|].
          constructor; auto. simpl. intros Ex. apply (f_equal (@length T)) in Ex. rewrite firstn_length in Ex. simpl in Ex. lia.
        + destruct Hr as [Hn _]. exists []. split; [constructor; auto|]. split; [simpl; lia|auto]. }
    destruct (G _ (pend s) (le_n _)) as (toks & B1 & B2 & B3).
    destruct (tok_collect_complete toks s fuel B1) as (es & E1 & E2); [lia|].
    exists es, toks. split; auto. split; auto. split; auto. split; auto. rewrite (Forall2_len _ _ _ E2). auto.
  Qed.

  (** the start state accepts: never ends *)
  Theorem tok_collect_diverges p s fuel : tok_accepts t [] p -> tok_collect fuel t f s = OutOfFuel.
  Proof.
    intros Hp. unfold tok_collect. generalize (@nil E). revert s. induction fuel as [|fuel IH]; intros s acc; cbn [loop]; auto.
    unfold collect_step. cbn [fst snd]. destruct (next_ok t f Ht s) as (o & s' & seen & En & [Hr _ _ _ _]). rewrite En.
    destruct o as [e|]; auto. exfalso. destruct Hr as [Hn _]. eapply (Hn 0); [lia|]. exact Hp.
  Qed.
End Collect.

(** *** DFATokenizer::new *)
Lemma mapM_id {A} (g : A -> res A) (l : list A) : (forall x, In x l -> g x = Ok x) -> mapM g l = Ok l.
Proof.
  induction l as [|x l IH]; simpl; intros H; auto. rewrite H by auto. simpl. rewrite IH; [reflexivity|]. auto.
Qed.

Lemma fold_aset_aget (l : list (nat * nat)) : NoDup (map fst l) ->
  forall k, aget Nat.eqb k (fold_left (fun en kv => aset Nat.eqb (fst kv) (snd kv) en) l []) = aget Nat.eqb k l.
Proof.
  intros Hn k. assert (G : forall (l en : list (nat*nat)), NoDup (map fst l) -> aget Nat.eqb k (fold_left (fun en kv => aset Nat.eqb (fst kv) (snd kv) en) l en) =
     match aget Nat.eqb k l with Some v => Some v | None => aget Nat.eqb k en end).
  { clear. induction l as [|[a v] l IH]; intros en Hn; cbn [fold_left fst snd]; auto. inversion Hn as [|? ? H1 H2]; subst.
    rewrite IH by auto. rewrite aget_aset by apply Nat.eqb_eq. simpl. destruct (Nat.eqb_spec k a) as [->|Hk]; auto.
    destruct (aget Nat.eqb a l) as [v'|] eqn:Ea; auto. exfalso. apply H1. apply aget_In in Ea; [|apply Nat.eqb_eq]. apply (in_map fst) in Ea. auto. }
  rewrite G by auto. destruct (aget Nat.eqb k l); auto.
Qed.

Lemma foldM_pure {A S} (g : S -> A -> S) (h : S -> A -> res S) (l : list A) : (forall s x, In x l -> h s x = Ok (g s x)) ->
  forall s, foldM h l s = Ok (fold_left g l s).
Proof.
  induction l as [|x l IH]; intros Hh s; cbn [foldM fold_left]; auto. rewrite Hh by (simpl; auto). cbn [bind]. apply IH. intros; apply Hh; simpl; auto.
Qed.

Section New.
  Context {E T : Type}.
  Variable d : dfa.
  Variable makers : list (list N -> list T -> E).
  Hypothesis Htarget : forall i nd r j, nth_error (d_nodes d) i = Some nd -> In (r, j) nd -> j < length (d_nodes d).
  Hypothesis Hbegin : d_begin d < length (d_nodes d).
  Hypothesis Hkeys : forall i p, In (i, p) (d_end d) -> i < length (d_nodes d).
  Hypothesis Hnodup : NoDup (map fst (d_end d)).

  Lemma tok_new_ok : exists en, tok_new d makers = Ok (mk_tok (d_nodes d) (d_begin d) en makers) /\
    (forall k, aget Nat.eqb k en = aget Nat.eqb k (d_end d)) /\ NoDup (map fst en).
  Proof.
    assert (Hi : forall n, n < length (d_nodes d) -> index_map d n = Ok n).
    { intros n Hn. unfold index_map. rewrite (proj2 (Nat.ltb_lt _ _)); auto. }
    unfold tok_new. rewrite mapM_id.
    2:{ intros nd Hnd. apply mapM_id. intros [r j] Hin. apply In_nth_error in Hnd as [i Hnd]. cbn [fst snd]. rewrite Hi by (eapply Htarget; eauto). reflexivity. }
    cbn [bind]. rewrite Hi by auto. cbn [bind].
    rewrite (foldM_pure (fun en kv => aset Nat.eqb (fst kv) (snd kv) en)).
    2:{ intros s [i p] Hin. cbn [fst snd]. rewrite Hi by (eapply Hkeys; eauto). reflexivity. }
    cbn [bind]. eexists. split; [reflexivity|]. split; [apply fold_aset_aget; auto|].
    assert (G : forall (l en : list (nat*nat)), NoDup (map fst en) -> NoDup (map fst (fold_left (fun en kv => aset Nat.eqb (fst kv) (snd kv) en) l en))).
    { clear. induction l as [|[a v] l IH]; intros en Hn; cbn [fold_left]; auto. apply IH. apply aset_NoDup; auto. apply Nat.eqb_eq. }
    apply G. constructor.
  Qed.
End New.

(** *** The builder *)
Record env_ok (e : build_env) : Prop := {
  eo_order : forall l, Permutation (be_order e l) l;
  eo_min : oracle_ok (be_min e)
}.
Definition env_honest (e : build_env) : Prop := honest (be_min e).

(** tables of a tokenizer seen as an automaton *)
Definition tok_dfa {E T} (t : tokenizer E T) : dfa := mk_dfa (tk_goto t) (tk_begin t) (tk_end t).

Record built {E T} (hirs : list hir) (makers : list (list N -> list T -> E)) (e : build_env) (t : tokenizer E T) : Prop := {
  bt_ok : length makers = length hirs -> tok_ok t;
  bt_makers : tk_makers t = makers;
  bt_ranges : forall i nd, nth_error (tk_goto t) i = Some nd -> ranges_ok nd;
  bt_nodup : NoDup (map fst (tk_end t));
  bt_accept : env_honest e -> forall w p, tok_accepts t w p <-> first_of (length hirs) (pat_lang hirs) w p;
  bt_minimal : env_honest e -> minimal (tok_dfa t);
  bt_reach : env_honest e -> forall i, i < length (tk_goto t) -> exists w, tok_run t w = Some i
}.

Section BuildOk.
  Context {E T : Type}.
  Variables (P PErr : Type) (parse : P -> hir + PErr).
  Hypothesis Hwf : forall p h, parse p = inl h -> wf_hir h.

  Lemma parse_all_ok ps hs : parse_all P PErr parse ps = inl hs -> Forall2 (fun p h => parse p = inl h) ps hs.
  Proof.
    revert hs. induction ps as [|p ps IH]; simpl; intros hs E1; [inversion E1; constructor|].
    destruct (parse p) as [h|] eqn:Ep; [|discriminate]. destruct (parse_all P PErr parse ps) as [hs'|] eqn:Es; [|discriminate].
    inversion E1; subst. constructor; auto.
  Qed.
  Lemma parse_all_err ps e : parse_all P PErr parse ps = inr e <->
    exists i p, nth_error ps i = Some p /\ parse p = inr e /\ forall j q, j < i -> nth_error ps j = Some q -> exists h, parse q = inl h.
  Proof.
    revert e. induction ps as [|p ps IH]; simpl; intros e.
    - split; [discriminate|]. intros (i & p & Hn & _). destruct i; discriminate.
    - destruct (parse p) as [h|e'] eqn:Ep.
      + destruct (parse_all P PErr parse ps) as [hs|e'] eqn:Es.
        * split; [discriminate|]. intros (i & q & Hn & Hq & Hj). destruct i as [|i]; simpl in Hn; [inversion Hn; subst; congruence|].
          exfalso. assert (Hx : inl hs = @inr (list hir) PErr e); [|discriminate Hx]. apply (IH e).
          exists i, q. split; auto. split; auto. intros j q' Hlt Hq'. apply (Hj (S j)); [lia|auto].
        * split.
          -- intros Ex; inversion Ex; subst. destruct (proj1 (IH e) eq_refl) as (i & q & Hn & Hq & Hj). exists (S i), q. split; auto. split; auto.
             intros [|j] q' Hlt Hq'; simpl in Hq'; [inversion Hq'; subst; eauto|]. apply (Hj j); [lia|auto].
          -- intros (i & q & Hn & Hq & Hj). destruct i as [|i]; simpl in Hn; [inversion Hn; subst; congruence|].
             f_equal. assert (Hx : inr e' = @inr (list hir) PErr e); [|congruence]. apply (IH e). exists i, q. split; auto. split; auto.
             intros j q' Hlt Hq'. apply (Hj (S j)); [lia|auto].
      + split.
        * intros Ex; inversion Ex; subst. exists 0, p. split; auto. split; auto. intros j q Hlt. lia.
        * intros (i & q & Hn & Hq & Hj). destruct i as [|i]; simpl in Hn; [inversion Hn; subst; congruence|].
          destruct (Hj 0 p) as [h Hh]; [lia|auto|]. congruence.
  Qed.

  Lemma split_map (l : list (P * (list N -> list T -> E))) : split l = (map fst l, map snd l).
  Proof. induction l as [|[a b] l IH]; simpl; auto. rewrite IH. reflexivity. Qed.

  Theorem build_ok (patterns : list (P * (list N -> list T -> E))) hirs :
    Forall2 (fun x h => parse (fst x) = inl h) patterns hirs ->
    (exists F, forall env fuel, env_ok env -> F <= fuel ->
       exists t ws, build P PErr parse env fuel patterns = BOk (t, ws) /\
         built hirs (map snd patterns) env t /\ warn_good (length hirs) (pat_lang hirs) ws /\ Forall supported hirs) \/
    (exists i h e, nth_error hirs i = Some h /\ uses h e /\ Forall supported (firstn i hirs) /\
       forall env fuel, build P PErr parse env fuel patterns = BErr (ConstructError e)).
  Proof.
    intros Hp.
    assert (Hall : parse_all P PErr parse (map fst patterns) = inl hirs).
    { induction Hp as [|x h l hs Hx Hl IH]; simpl; auto. rewrite Hx, IH. reflexivity. }
    assert (Hw : Forall wf_hir hirs) by (clear Hall; induction Hp as [|x h l hs Hx Hl IH]; constructor; auto; eapply Hwf; eauto).
    destruct (tnfa_of_spec hirs Hw) as [(nf & En & Hg)|(i & h & e & En & Hi & Hu & Hs)].
    - left. destruct (dfa_of_spec hirs nf Hg) as (F & nodes & HF). exists F. intros env fuel [Eo Em] Hfuel.
      destruct (HF (be_order env) fuel Eo Hfuel) as (en & ws & Ed & Hgood & Hwarn).
      unfold build. rewrite split_map, Hall, En, Ed. cbn [bind].
      destruct (minify_ok (be_min env) _ Em (dg_ranges _ _ _ Hgood) (dg_target _ _ _ Hgood) (dg_begin _ _ _ Hgood)
                 (fun i p H => proj1 (dg_keys _ _ _ Hgood i p H)) (dg_nodup _ _ _ Hgood)) as (d' & g & Emin & A1 & A2 & A3 & A4 & A5 & A6 & A7 & A8 & A9).
      rewrite Emin. cbn [bind].
      assert (Hb : d_begin d' < length (d_nodes d')) by (rewrite A3; apply A4; apply Hgood).
      assert (Hk : forall i p, In (i, p) (d_end d') -> i < length (d_nodes d')).
      { intros i p Hin. destruct (A8 i p Hin) as (j & Hj & <- & _). apply A4; auto. }
      destruct (@tok_new_ok E T d' (map snd patterns) A2 Hb Hk A7) as (en' & Et & Hen & Hnd).
      rewrite Et. cbn [bind of_res]. eexists _, ws. split; [reflexivity|]. split; [|split; auto].
      + assert (Hdfa : env_honest env -> dfa_good (length hirs) (pat_lang hirs) d' /\ minimal d').
        { intros Hh. destruct (minify_good (be_min env) _ _ _ Em Hh Hgood) as (d'' & E2 & G2 & M2 & _). assert (d'' = d') by congruence. subst. auto. }
        split; cbn [tk_goto tk_begin tk_end tk_makers]; auto.
        * intros Hlen. split; cbn [tk_goto tk_begin tk_end tk_makers]; auto.
          -- intros i nd c j Hnd' Hl. apply lookup_spec in Hl as (r & Hin & _); [|eapply A1; eauto]. eapply A2; eauto.
          -- intros n p Ha. rewrite Hen in Ha. apply aget_In in Ha; [|apply Nat.eqb_eq]. destruct (A8 n p Ha) as (j & Hj & _ & Hin).
             rewrite Hlen. apply (dg_keys _ _ _ Hgood j p Hin).
        * intros Hh w p. destruct (Hdfa Hh) as [[B1 B2 B3 B4 B5 B6 B7 B8] _]. unfold tok_accepts, tok_run. cbn [tk_goto tk_begin tk_end]. split.
          -- intros (n & Hn & Ha). rewrite Hen in Ha. apply (B5 w n Hn p) in Ha. exact Ha.
          -- intros Hf. destruct (drun (d_nodes d') (d_begin d') w) as [n|] eqn:Er.
             ++ exists n. split; auto. rewrite Hen. apply (B5 w n Er p). exact Hf.
             ++ destruct Hf as (Hf1 & Hf2 & _). exfalso. eapply B6; eauto.
        * intros Hh. destruct (Hdfa Hh) as [_ M]. intros i j Hi Hj Hij. destruct (M i j Hi Hj Hij) as [w Hw']. exists w.
          intros Eq. apply Hw'. unfold obs, tok_dfa in *. cbn [d_nodes d_end tk_goto tk_end] in *.
          destruct (drun (d_nodes d') i w), (drun (d_nodes d') j w); simpl in *; rewrite ?Hen in Eq; auto.
        * intros Hh i Hi. destruct (Hdfa Hh) as [[B1 B2 B3 B4 B5 B6 B7 B8] _]. apply B4; auto.
      + apply Hg.
    - right. exists i, h, e. split; auto. split; auto. split; auto. intros env fuel. unfold build. rewrite split_map, Hall, En. reflexivity.
  Qed.

  (** *** tokenizer! *)
  Lemma emit_map_id (m : list (crange * nat)) : ranges_ok m -> emit_map m = m.
  Proof.
    unfold emit_map. induction m as [|[r v] m IH] using rev_ind; intros Hr; auto.
    apply ranges_ok_app_inv in Hr as (R1 & R2 & R3). rewrite fold_left_app. cbn [fold_left fst snd]. rewrite IH by auto.
    apply rset_last. intros x Hx. specialize (R3 x (r, v) Hx (or_introl eq_refl)). destruct R1 as [R1 _]. rewrite Forall_forall in R1. specialize (R1 x Hx).
    cbn [fst] in R3. destruct x as [[a b] u]; cbn [fst snd] in *. lia.
  Qed.

  Theorem macro_ok (rules : list (P * (list N -> list T -> E))) env fuel order t ws :
    env_ok env -> (forall l, Permutation (order l) l) ->
    build P PErr parse env fuel (map (fun r => (fst r, unit_maker)) rules) = BOk (t, ws) ->
    (forall i nd, nth_error (tk_goto t) i = Some nd -> ranges_ok nd) -> NoDup (map fst (tk_end t)) ->
    exists t', tokenizer_macro P PErr parse env order fuel rules = BOk t' /\
      tk_goto t' = tk_goto t /\ tk_begin t' = tk_begin t /\ (forall k, aget Nat.eqb k (tk_end t') = aget Nat.eqb k (tk_end t)) /\ tk_makers t' = map snd rules.
  Proof.
    intros He Hord Hb Hr Hn. unfold tokenizer_macro. rewrite split_map.
    assert (Em : map (fun r => (r, unit_maker)) (map fst rules) = map (fun r => (fst r, unit_maker)) rules) by (rewrite map_map; reflexivity).
    rewrite Em, Hb. eexists. split; [reflexivity|]. cbn [tk_goto tk_begin tk_end tk_makers]. split; [|split; [|split]]; auto.
    - rewrite <- (map_id (tk_goto t)) at 2. apply map_ext_in. intros m Hm. apply In_nth_error in Hm as [i Hm]. apply emit_map_id. eapply Hr; eauto.
    - intros k. unfold emit_end. assert (Hp := Hord (tk_end t)).
      assert (Hn' : NoDup (map fst (order (tk_end t)))) by (eapply Permutation_NoDup; [apply Permutation_map, Permutation_sym, Hp|auto]).
      rewrite fold_aset_aget by auto. destruct (aget Nat.eqb k (tk_end t)) as [v|] eqn:Ev.
      + apply aget_NoDup; auto; [apply Nat.eqb_eq|]. apply aget_In in Ev; [|apply Nat.eqb_eq]. eapply Permutation_in; [apply Permutation_sym, Hp|auto].
      + destruct (aget Nat.eqb k (order (tk_end t))) as [v|] eqn:Ev'; auto. apply aget_In in Ev'; [|apply Nat.eqb_eq].
        apply (Permutation_in _ Hp) in Ev'. apply (aget_NoDup Nat.eqb Nat.eqb_eq) in Ev'; auto. congruence.
  Qed.
End BuildOk.

(** the maker type plays no role in the construction *)
Lemma build_tables {P PErr E1 T1 E2 T2} (parse : P -> hir + PErr) env fuel
      (p1 : list (P * (list N -> list T1 -> E1))) (p2 : list (P * (list N -> list T2 -> E2))) :
  map fst p1 = map fst p2 ->
  match build P PErr parse env fuel p1, build P PErr parse env fuel p2 with
  | BOk (t1, ws1), BOk (t2, ws2) => tk_goto t1 = tk_goto t2 /\ tk_begin t1 = tk_begin t2 /\ tk_end t1 = tk_end t2 /\ ws1 = ws2
  | BErr e1, BErr e2 => e1 = e2
  | BPanic, BPanic => True
  | BFuel, BFuel => True
  | _, _ => False
  end.
Proof.
  intros Hm. unfold build. rewrite !split_map, Hm. destruct (parse_all P PErr parse (map fst p2)) as [hs|e]; auto.
  destruct (tnfa_of hs) as [nf|e|]; auto. destruct (dfa_of (be_order env) fuel nf) as [[d ws]| |]; cbn [bind of_res]; auto.
  destruct (minify (be_min env) d) as [d'| |]; cbn [bind of_res]; auto. unfold tok_new.
  destruct (mapM _ (d_nodes d')) as [goto| |]; cbn [bind of_res]; auto.
  destruct (index_map d' (d_begin d')) as [b| |]; cbn [bind of_res]; auto.
  destruct (foldM _ (d_end d') []) as [en| |]; cbn [bind of_res]; auto.
Qed.
